(** The constraints of the maximum-likelihood problem. *)
From Coq Require Import QArith Reals Lra.
From Coquelicot Require Import Coquelicot.
From Verif Require Import LinAlg Base ResultFacts PyStr CtmpSpec EntSpec LinInv TomoModel TomoFitModel TomoFitSpec TomoPsdSpec GstModel GstOptModel GstOptSpec GstPauliProofs GstEncProofs.
Local Open Scope list_scope.
Local Open Scope nat_scope.

Lemma firstn_S_nth {A} (l : list A) k a : nth_error l k = Some a -> firstn (S k) l = firstn k l ++ [a].
Proof. revert l. induction k as [|k IH]; intros [|x l] H; cbn in *; try discriminate; [congruence|]. f_equal. apply IH. exact H. Qed.
Lemma nth_error_skipn' {A} (l : list A) i k : nth_error (skipn i l) k = nth_error l (i + k).
Proof. revert l. induction i as [|i IH]; intros l; [reflexivity|]. destruct l; cbn; [destruct k; reflexivity|apply IH]. Qed.
Lemma nth_error_firstn' {A} (l : list A) k j : j < k -> nth_error (firstn k l) j = nth_error l j.
Proof. revert l j. induction k as [|k IH]; intros l j H; [lia|]. destruct l; [reflexivity|]. destruct j; [reflexivity|]. cbn. apply IH. lia. Qed.
Lemma push_ok vals f : forall k i acc, i + k <= length vals -> push vals k f (i, acc) = Ok (i + k, acc ++ flat_map f (firstn k (skipn i vals))).
Proof.
  induction k as [|k IH]; intros i acc H; unfold push in *.
  - cbn. rewrite Nat.add_0_r, app_nil_r. reflexivity.
  - rewrite seq_S, foldM_app'. rewrite IH by lia. cbn [bind foldM fst snd Nat.add]. 
    destruct (nth_error vals (i + k)) as [v|] eqn:E; [|apply nth_error_None in E; lia]. rewrite (index_ok _ _ _ E). cbn [bind]. 
    rewrite (firstn_S_nth _ k v) by (rewrite nth_error_skipn'; exact E). rewrite flat_map_app. cbn [flat_map]. rewrite app_nil_r, app_assoc. do 2 f_equal. lia.
Qed.
Lemma window {A} (pre v post : list A) o k : o + k <= length v -> firstn k (skipn (length pre + o) (pre ++ v ++ post)) = firstn k (skipn o v).
Proof.
  intros H. rewrite skipn_app. replace (length pre + o - length pre) with o by lia. rewrite skipn_all2 by lia. cbn [app]. rewrite skipn_app, firstn_app, skipn_length.
  replace (k - (length v - o)) with 0 by lia. cbn [firstn]. apply app_nil_r.
Qed.
Lemma Forall_window {A} (P : A -> Prop) d (l : list A) o k : o + k <= length l -> Forall P (firstn k (skipn o l)) <-> forall j, j < k -> P (nth (o + j) l d).
Proof.
  intros H. rewrite Forall_forall. split.
  - intros F j Hj. apply F. apply (nth_error_In _ j). rewrite nth_error_firstn' by exact Hj. rewrite nth_error_skipn'. apply nth_error_nth'. lia.
  - intros F x Hx. apply In_nth_error in Hx. destruct Hx as (j & E). assert (Hj : j < k).
    { assert (j < length (firstn k (skipn o l))) by (apply nth_error_Some; congruence). rewrite firstn_length in *. lia. }
    rewrite nth_error_firstn', nth_error_skipn' in E by exact Hj. apply (nth_error_nth _ _ d) in E. rewrite <- E. apply F. exact Hj.
Qed.

(** What each loop adds for one gate, whose numbers are [v]. *)
Definition eq_block (ds : nat) (v : list R) : list R :=
  flat_map (fun v => [v - 1]%R) (firstn 1 v) ++ flat_map (fun v => [v - 0]%R) (firstn (ds - 1) (skipn 1 v)) ++ flat_map (fun v => [v - 0]%R) (firstn (ds * ds) (skipn (ds * ds) v)).
Definition ineq_block (ds : nat) (v : list R) : list R := flat_map (fun v => [v + 1; - v + 1]%R) (firstn ((ds - 1) * ds) (skipn ds v)).

Lemma eq_loop ds : 0 < ds -> forall vs pre acc, Forall (fun v => length v = 2 * (ds * ds)) vs -> let vals := pre ++ concat vs in
  foldM (fun st _ => do st <- push vals 1 (fun v => [v - 1]%R) st; do st <- push vals (ds - 1) (fun v => [v - 0]%R) st; push vals (ds ^ 2) (fun v => [v - 0]%R) (skip ((ds - 1) * ds) st)) (seq 0 (length vs)) (length pre, acc) =
  Ok (length vals, acc ++ flat_map (eq_block ds) vs).
Proof.
  intros Hd vs pre acc F. cbv zeta. assert (K : forall s, foldM (fun st _ => do st <- push (pre ++ concat vs) 1 (fun v => [v - 1]%R) st; do st <- push (pre ++ concat vs) (ds - 1) (fun v => [v - 0]%R) st; push (pre ++ concat vs) (ds ^ 2) (fun v => [v - 0]%R) (skip ((ds - 1) * ds) st)) (seq s (length vs)) (length pre, acc) = Ok (length (pre ++ concat vs), acc ++ flat_map (eq_block ds) vs)); [|apply K].
  revert pre acc. induction F as [|v vs H F IH]; intros pre acc s; cbn [length seq foldM concat flat_map]; [rewrite !app_nil_r; reflexivity|].
  assert (N : ds * ds = 1 + (ds - 1) + (ds - 1) * ds) by nia.
  rewrite push_ok by (rewrite !app_length; lia). cbn [bind]. rewrite push_ok by (rewrite !app_length; nia). cbn [bind]. unfold skip at 1. cbn [fst snd]. rewrite push_ok by (rewrite !app_length, Nat.pow_2_r; nia). cbn [bind].
  pose proof (window pre v (concat vs) 0 1 ltac:(rewrite H; nia)) as W0. rewrite Nat.add_0_r in W0. rewrite W0. rewrite window by (rewrite H; nia).
  replace (length pre + 1 + (ds - 1) + (ds - 1) * ds) with (length pre + ds * ds) by nia. rewrite window by (rewrite H, Nat.pow_2_r; nia).
  specialize (IH (pre ++ v) (((acc ++ flat_map (fun v0 : R => [v0 - 1]%R) (firstn 1 (skipn 0 v))) ++ flat_map (fun v0 : R => [v0 - 0]%R) (firstn (ds - 1) (skipn 1 v))) ++ flat_map (fun v0 : R => [v0 - 0]%R) (firstn (ds ^ 2) (skipn (ds * ds) v))) (S s)).
  rewrite <- app_assoc in IH. replace (length pre + ds * ds + ds ^ 2) with (length (pre ++ v)) by (rewrite app_length, H, Nat.pow_2_r; lia). rewrite IH. unfold eq_block. rewrite Nat.pow_2_r. cbn [skipn]. rewrite <- !app_assoc. reflexivity.
Qed.
Lemma ineq_loop ds : 0 < ds -> forall vs pre acc, Forall (fun v => length v = 2 * (ds * ds)) vs -> let vals := pre ++ concat vs in
  foldM (fun st _ => do st <- push vals ((ds - 1) * ds) (fun v => [v + 1; - v + 1]%R) (skip (ds - 1) (skip 1 st)); Ok (skip (ds ^ 2) st)) (seq 0 (length vs)) (length pre, acc) =
  Ok (length vals, acc ++ flat_map (ineq_block ds) vs).
Proof.
  intros Hd vs pre acc F. cbv zeta. assert (K : forall s, foldM (fun st _ => do st <- push (pre ++ concat vs) ((ds - 1) * ds) (fun v => [v + 1; - v + 1]%R) (skip (ds - 1) (skip 1 st)); Ok (skip (ds ^ 2) st)) (seq s (length vs)) (length pre, acc) = Ok (length (pre ++ concat vs), acc ++ flat_map (ineq_block ds) vs)); [|apply K].
  revert pre acc. induction F as [|v vs H F IH]; intros pre acc s; cbn [length seq foldM concat flat_map]; [rewrite !app_nil_r; reflexivity|].
  assert (N : ds * ds = 1 + (ds - 1) + (ds - 1) * ds) by nia. unfold skip. cbn [fst snd].
  replace (length pre + 1 + (ds - 1)) with (length pre + ds) by lia.
  rewrite push_ok by (rewrite !app_length; nia). cbn [bind fst snd]. rewrite window by (rewrite H; nia).
  specialize (IH (pre ++ v) (acc ++ flat_map (fun v0 : R => [v0 + 1; - v0 + 1]%R) (firstn ((ds - 1) * ds) (skipn ds v))) (S s)).
  rewrite <- app_assoc in IH. replace (length pre + ds + (ds - 1) * ds + ds ^ 2) with (length (pre ++ v)) by (rewrite app_length, H, Nat.pow_2_r; nia). unfold skip in IH. cbn [fst snd] in IH. rewrite IH. unfold ineq_block. rewrite <- !app_assoc. reflexivity.
Qed.
Lemma flat_map_one (f : R -> R) l : flat_map (fun v => [f v]) l = map f l. Proof. induction l as [|a l IH]; [reflexivity|]. cbn. rewrite IH. reflexivity. Qed.
Lemma Forall_flat_map {A B} (P : B -> Prop) (f : A -> list B) l : Forall P (flat_map f l) <-> Forall (fun a => Forall P (f a)) l.
Proof. induction l as [|a l IH]; cbn; [split; constructor|]. rewrite Forall_app, IH. split; [intros [? ?]; constructor; assumption|intros H; inversion H; subst; split; assumption]. Qed.

Section Gate.
Variables (q : nat) (G : cmat).
Hypothesis HR : m_rows G = 4 ^ q.
Hypothesis HC : m_cols G = 4 ^ q.
Let v := complex_matrix_to_vec G.
Lemma length_v : length v = 2 * (4 ^ q * 4 ^ q). Proof. unfold v. rewrite length_vec, HR, HC. reflexivity. Qed.
Lemma re_v i j : i < 4 ^ q -> j < 4 ^ q -> nth (i * 4 ^ q + j) v 0%R = fst (m_at G i j).
Proof.
  intros Hi Hj. unfold v, complex_matrix_to_vec. assert (L : length (map fst (flat G)) = 4 ^ q * 4 ^ q) by (rewrite map_length; transitivity (m_rows G * m_cols G); [apply length_flat|rewrite HR, HC; reflexivity]).
  rewrite app_nth1 by (rewrite L; nia). transitivity (fst (nth (i * 4 ^ q + j) (flat G) (RtoC 0))); [exact (map_nth fst (flat G) (RtoC 0) _)|]. f_equal. rewrite <- HC. apply nth_flat; lia.
Qed.
Lemma im_v i j : i < 4 ^ q -> j < 4 ^ q -> nth (4 ^ q * 4 ^ q + (i * 4 ^ q + j)) v 0%R = snd (m_at G i j).
Proof.
  intros Hi Hj. unfold v, complex_matrix_to_vec. assert (L : length (map fst (flat G)) = 4 ^ q * 4 ^ q) by (rewrite map_length; transitivity (m_rows G * m_cols G); [apply length_flat|rewrite HR, HC; reflexivity]).
  rewrite app_nth2 by (rewrite L; nia). rewrite L. replace (4 ^ q * 4 ^ q + (i * 4 ^ q + j) - 4 ^ q * 4 ^ q) with (i * 4 ^ q + j) by lia.
  transitivity (snd (nth (i * 4 ^ q + j) (flat G) (RtoC 0))); [exact (map_nth snd (flat G) (RtoC 0) _)|]. f_equal. rewrite <- HC. apply nth_flat; lia.
Qed.
Lemma split_idx k : k < 4 ^ q * 4 ^ q -> exists i j, i < 4 ^ q /\ j < 4 ^ q /\ k = i * 4 ^ q + j.
Proof.
  intros H. pose proof (pow4_pos q). exists (k / 4 ^ q), (k mod 4 ^ q). split; [apply div_lt; lia|]. split; [apply Nat.mod_upper_bound; lia|]. pose proof (Nat.div_mod k (4 ^ q)). lia.
Qed.
Lemma eq_block_iff : Forall (fun x => x = 0%R) (eq_block (4 ^ q) v) <-> trace_preserving q (m_at G) /\ forall i j, i < 4 ^ q -> j < 4 ^ q -> is_real (m_at G i j).
Proof.
  pose proof (pow4_pos q) as P. pose proof length_v as L. unfold eq_block. rewrite !flat_map_one, !Forall_app, !Forall_map. rewrite trace_row.
  change (firstn 1 v) with (firstn 1 (skipn 0 v)). rewrite (Forall_window _ 0%R) by nia. rewrite (Forall_window _ 0%R) by nia. rewrite (Forall_window _ 0%R) by nia. cbn [Nat.add]. split.
  - intros (A & B & D). assert (Im : forall i j, i < 4 ^ q -> j < 4 ^ q -> is_real (m_at G i j)).
    { intros i j Hi Hj. unfold is_real. rewrite <- im_v by assumption. specialize (D (i * 4 ^ q + j)). cbn beta in D. assert (X := D ltac:(nia)). lra. }
    split; [|exact Im]. intros j Hj. destruct (Nat.eqb_spec j 0) as [->|N].
    + specialize (A 0 ltac:(lia)). cbn beta in A. pose proof (re_v 0 0 P P) as E. cbn in E. rewrite E in A. specialize (Im 0 0 P P). unfold is_real in Im. apply injective_projections; cbn; lra.
    + specialize (B (j - 1) ltac:(lia)). cbn beta in B. pose proof (re_v 0 j P Hj) as E. cbn [Nat.mul Nat.add] in E. replace (S (j - 1)) with j in B by lia. rewrite E in B. specialize (Im 0 j P Hj). unfold is_real in Im. apply injective_projections; cbn; lra.
  - intros [Row Im]. repeat split.
    + intros j Hj. assert (j = 0) by lia. subst j. pose proof (re_v 0 0 P P) as E. cbn [Nat.mul Nat.add] in E. rewrite E, Row by assumption. cbn. lra.
    + intros j Hj. pose proof (re_v 0 (S j) P ltac:(lia)) as E. cbn [Nat.mul Nat.add] in E. rewrite E, Row by lia. cbn. lra.
    + intros k Hk. destruct (split_idx k Hk) as (i & j & Hi & Hj & ->). rewrite im_v by assumption. rewrite (Im i j Hi Hj). lra.
Qed.
Lemma ineq_block_iff : Forall (fun x => (0 <= x)%R) (ineq_block (4 ^ q) v) <-> forall i j, 0 < i -> i < 4 ^ q -> j < 4 ^ q -> (-1 <= fst (m_at G i j) <= 1)%R.
Proof.
  pose proof (pow4_pos q) as P. pose proof length_v as L. unfold ineq_block. rewrite Forall_flat_map. rewrite (Forall_window _ 0%R) by nia. split.
  - intros A i j H0 Hi Hj. specialize (A ((i - 1) * 4 ^ q + j) ltac:(nia)). cbn beta in A. replace (4 ^ q + ((i - 1) * 4 ^ q + j)) with (i * 4 ^ q + j) in A by nia. rewrite re_v in A by assumption. inversion A as [|? ? X1 A']; subst. inversion A' as [|? ? X2 _]; subst. lra.
  - intros A k Hk. destruct (split_idx (4 ^ q + k) ltac:(nia)) as (i & j & Hi & Hj & E). rewrite E, re_v by assumption. assert (H0 : 0 < i) by nia. specialize (A i j H0 Hi Hj). constructor; [lra|]. constructor; [lra|]. constructor.
Qed.
End Gate.

Lemma constraints_lemma q n x E rho Gs : split_input_vector q n x = Ok (E, rho, Gs) ->
  (exists l, bounds_eq_constraint q n x = Ok l /\ (Forall (fun v => v = 0%R) l <-> Forall (fun G => trace_preserving q (m_at G) /\ forall i j, i < 4 ^ q -> j < 4 ^ q -> is_real (m_at G i j)) Gs)) /\
  (exists l, bounds_ineq_constraint q n x = Ok l /\ (Forall (fun v => (0 <= v)%R) l <-> Forall (fun G => forall i j, 0 < i -> i < 4 ^ q -> j < 4 ^ q -> (-1 <= fst (m_at G i j) <= 1)%R) Gs)).
Proof.
  intros H. destruct (Nat.eq_dec (length x) (vec_length q n)) as [Hl|Hl]; [|rewrite decoding_error in H by exact Hl; discriminate].
  destruct (decoding_lemma q n x Hl) as (E' & rho' & Gs' & S & Ln & EX). rewrite H in S. injection S as <- <- <-. pose proof (ex_Gs _ _ _ _ EX) as FG. pose proof (pow4_pos q) as P.
  assert (FL : Forall (fun v => length v = 2 * (4 ^ q * 4 ^ q)) (map complex_matrix_to_vec Gs)).
  { apply Forall_forall. intros v Hv. apply in_map_iff in Hv. destruct Hv as (G & <- & HG). rewrite Forall_forall in FG. destruct (FG G HG) as (A & B & _). rewrite length_vec, A, B. reflexivity. }
  unfold bounds_eq_constraint, bounds_ineq_constraint, ptm_matrix_values. rewrite H. cbn [bind snd]. rewrite ds_pow, flat_map_concat_map.
  assert (Lm : length (map complex_matrix_to_vec Gs) = n) by (rewrite map_length; exact Ln).
  pose proof (eq_loop (4 ^ q) P _ [] [] FL) as L1. pose proof (ineq_loop (4 ^ q) P _ [] [] FL) as L2. cbv zeta in L1, L2. rewrite Lm in L1, L2. cbn [app length] in L1, L2. rewrite L1, L2. cbn [bind snd app].
  split; eexists; (split; [reflexivity|]).
  - rewrite Forall_flat_map, Forall_map. split; intros F; apply Forall_forall; intros G HG; rewrite Forall_forall in F, FG; destruct (FG G HG) as (A & B & _); [apply (eq_block_iff q G A B), F|apply (eq_block_iff q G A B), F]; exact HG.
  - rewrite Forall_flat_map, Forall_map. split; intros F; apply Forall_forall; intros G HG; rewrite Forall_forall in F, FG; destruct (FG G HG) as (A & B & _); [apply (ineq_block_iff q G A B), F|apply (ineq_block_iff q G A B), F]; exact HG.
Qed.
