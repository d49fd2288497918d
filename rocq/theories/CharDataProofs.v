(** Data points of the fitters (C54). *)
From Coq Require Import QArith Qreals Reals Lra.
From Verif Require Import Base LinAlg QSem PyStr DihedralModel RBSeqModel RBSeqSpec StdGates AccSpec EntSpec CtmpSpec ResultFacts.
From Verif Require Import CountsModel CountsSpec CountsProofs MeasCalModel TomoTupleProofs CharModel CharSpec CharProdProofs.
Local Open Scope list_scope.
Local Open Scope nat_scope.

Definition wsum (ok : pystr -> bool) (c : counts) : Z := zsum (map (fun kv => if ok (fst kv) then snd kv else 0%Z) c).

Lemma zsum_fold l : fold_right Z.add 0%Z l = zsum l.
Proof. induction l as [|a l IH]; cbn; [reflexivity|]. rewrite IH. reflexivity. Qed.
Lemma pooled_found rs name ok : pooled rs name ok = zsum (map (wsum ok) (found rs name)).
Proof.
  unfold pooled, found. rewrite zsum_fold. induction rs as [|r rs IH]; [reflexivity|]. cbn [map flat_map zsum]. rewrite IH, map_app, zsum_app.
  destruct (get_counts r name); cbn [map zsum]; [|lia]. unfold wsum. rewrite zsum_fold. cbn. lia.
Qed.

Lemma bit_counts_keys m c : bit_counts m c -> forall y, In y (map fst c) -> length y = m /\ is_bits y.
Proof.
  intros [_ H] y Hy. apply in_map_iff in Hy. destruct Hy as ([k v] & <- & Hi). rewrite Forall_forall in H. destruct (H _ Hi) as (A & B & _). split; [exact A|]. cbn in B. rewrite Forall_forall in B. exact B.
Qed.
Lemma wsum_all m ok c : NoDup (map fst c) -> (forall y, In y (map fst c) -> length y = m /\ is_bits y) ->
  wsum ok c = zsum (map (fun y => if ok y then dget0 c y else 0%Z) (all_bits m)).
Proof.
  intros Hn Hk. pose proof (sum_over_dict c m (fun k => if ok k then 1%Z else 0%Z) Hn Hk) as E. unfold wsum.
  rewrite (zsum_map_ext _ (fun kv => (if ok (fst kv) then 1 else 0) * snd kv)%Z) by (intros [k v] _; cbn; destruct (ok k); lia). rewrite E.
  apply zsum_map_ext. intros y _. destruct (ok y); lia.
Qed.

(** Keys of pooled counts. *)
Lemma build_step_NoDup r kv : NoDup (dkeys r) -> NoDup (dkeys (build_step r kv)).
Proof. intros H. unfold build_step. apply NoDup_dset. exact H. Qed.
Lemma build_step_key r kv k : In k (dkeys (build_step r kv)) -> In k (dkeys r) \/ k = fst kv.
Proof. unfold build_step. intros H. apply In_dkeys_dset in H. tauto. Qed.
Lemma build_inner c : forall r, NoDup (dkeys r) -> NoDup (dkeys (fold_left build_step c r)) /\ forall k, In k (dkeys (fold_left build_step c r)) -> In k (dkeys r) \/ In k (map fst c).
Proof.
  induction c as [|kv c IH]; intros r Hr; cbn [fold_left map]; [split; auto|]. destruct (IH _ (build_step_NoDup r kv Hr)) as [A B]. split; [exact A|].
  intros k Hk. destruct (B k Hk) as [H|H]; [|right; right; exact H]. apply build_step_key in H. destruct H as [H|H]; [left; exact H|right; left; symmetry; exact H].
Qed.
Lemma build_keys l : (forall c, In c l -> NoDup (map fst c)) ->
  NoDup (map fst (build_counts l)) /\ forall k, In k (map fst (build_counts l)) -> exists c, In c l /\ In k (map fst c).
Proof.
  intros Hn. assert (G : forall l r, NoDup (dkeys r) -> NoDup (dkeys (fold_left (fun acc c => fold_left build_step c acc) l r)) /\
    forall k, In k (dkeys (fold_left (fun acc c => fold_left build_step c acc) l r)) -> In k (dkeys r) \/ exists c, In c l /\ In k (map fst c)).
  { clear. induction l as [|c l IH]; intros r Hr; cbn [fold_left]; [split; auto|]. destruct (build_inner c r Hr) as [A B]. destruct (IH _ A) as [A' B']. split; [exact A'|].
    intros k Hk. destruct (B' k Hk) as [H|(c' & Hc & H)]; [destruct (B k H) as [H'|H']; [left; exact H'|right; exists c; split; [left; reflexivity|exact H']]|right; exists c'; split; [right; exact Hc|exact H]]. }
  assert (G0 : NoDup (map fst (fold_left (fun acc c => fold_left build_step c acc) l [])) /\ forall k, In k (map fst (fold_left (fun acc c => fold_left build_step c acc) l [])) -> exists c, In c l /\ In k (map fst c)).
  { destruct (G l [] (NoDup_nil _)) as [A B]. split; [exact A|]. intros k Hk. destruct (B k Hk) as [[]|H]; exact H. }
  unfold build_counts. destruct l as [|c [|c' l']]; [exact G0| |exact G0]. split; [apply Hn; left; reflexivity|]. intros k Hk. exists c. split; [left; reflexivity|exact Hk].
Qed.
Lemma wsum_build m ok l : (forall c, In c l -> bit_counts m c) -> wsum ok (build_counts l) = zsum (map (wsum ok) l).
Proof.
  intros H. assert (Hn : forall c, In c l -> NoDup (map fst c)) by (intros c Hc; apply (H c Hc)). destruct (build_keys l Hn) as [A B].
  rewrite (wsum_all m) by (auto; intros y Hy; destruct (B y Hy) as (c & Hc & Hy'); exact (bit_counts_keys m c (H c Hc) y Hy')).
  rewrite (zsum_map_ext (wsum ok) (fun c => zsum (map (fun y => if ok y then shots_of c y else 0%Z) (all_bits m)))).
  - rewrite zsum_swap. apply zsum_map_ext. intros y _. destruct (ok y).
    + apply build_counts_sum_lemma. exact Hn.
    + rewrite zsum_map_zero. reflexivity.
  - intros c Hc. rewrite (wsum_all m ok c (Hn c Hc) (bit_counts_keys m c (H c Hc))). apply zsum_map_ext. intros y _. destruct (ok y); [|reflexivity]. apply shots_of_dget0, Hn, Hc.
Qed.

Lemma wsum_le m ok c : bit_counts m c -> (0 <= wsum ok c <= wsum (fun _ => true) c)%Z.
Proof.
  intros [_ H]. unfold wsum. induction c as [|[k v] c IH]; cbn [map zsum fst snd]; [lia|]. inversion H as [|? ? (_ & _ & Hv) H']; subst. cbn in Hv. specialize (IH H'). destruct (ok k); lia.
Qed.
Lemma zsum_le {A} (f g : A -> Z) l : (forall a, In a l -> (0 <= f a <= g a)%Z) -> (0 <= zsum (map f l) <= zsum (map g l))%Z.
Proof. induction l as [|a l IH]; intros H; cbn; [lia|]. pose proof (H a (or_introl eq_refl)). specialize (IH (fun b Hb => H b (or_intror Hb))). lia. Qed.

(** One data point. *)
Lemma found_In rs name c : In c (found rs name) -> exists r, In r rs /\ get_counts r name = Ok c.
Proof. unfold found. intros H. apply in_flat_map in H. destruct H as (r & Hr & H). exists r. split; [exact Hr|]. destruct (get_counts r name); [|destruct H]. destruct H as [->|[]]. reflexivity. Qed.

Definition bitch (o : bool) : ascii := if o then "1"%char else "0"%char.
Lemma marg_spec_bit m c j o : (forall y, In y (map fst c) -> length y = m /\ is_bits y) -> marginal_spec c [j] [bitch o] = wsum (bit_is j o) c.
Proof.
  intros H. unfold marginal_spec, wsum. apply zsum_map_ext. intros [k v] Hi. cbn [fst snd]. destruct (H k) as [_ Hb]; [apply in_map_iff; exists (k, v); auto|].
  rewrite strip_bits by exact Hb. unfold outcome_on, bit_is, qubit_bit. cbn [map rev app]. unfold bitch.
  set (a := nth j (rev k) "?"%char). destruct (eqb_spec [a] [if o then "1"%char else "0"%char]) as [E|E], (eqb_spec a (if o then "1"%char else "0"%char)) as [E'|E']; try reflexivity.
  - injection E as E. contradiction.
  - exfalso. apply E. rewrite E'. reflexivity.
Qed.
Lemma point_lemma rs name m j o : valid_run rs name m -> j < m ->
  exists p e, point (build_counts (found rs name)) [bitch o] j = Ok (p, e) /\
    p == inject_Z (pooled rs name (bit_is j o)) / inject_Z (pooled rs name (fun _ => true)) /\ (0 <= p <= 1)%Q /\ error_bar p (pooled rs name (fun _ => true)) e.
Proof.
  intros [Hb Hpos] Hj. set (c := build_counts (found rs name)).
  assert (Hbc : forall c', In c' (found rs name) -> bit_counts m c'). { intros c' Hc. destruct (found_In rs name c' Hc) as (r & Hr & E). exact (Hb r c' Hr E). }
  assert (Hn : forall c', In c' (found rs name) -> NoDup (map fst c')) by (intros c' Hc; apply (Hbc c' Hc)).
  destruct (build_keys (found rs name) Hn) as [Kn Kk]. fold c in Kn, Kk.
  assert (Hk : forall y, In y (map fst c) -> length y = m /\ is_bits y). { intros y Hy. destruct (Kk y Hy) as (c' & Hc & Hy'). exact (bit_counts_keys m c' (Hbc c' Hc) y Hy'). }
  assert (Ew : forall ok, wsum ok c = pooled rs name ok). { intros ok. unfold c. rewrite (wsum_build m ok _ Hbc), pooled_found. reflexivity. }
  assert (Et : zsum (dvals c) = pooled rs name (fun _ => true)). { rewrite <- Ew. unfold wsum, dvals. reflexivity. }
  assert (Hne : c <> []). { intros E. rewrite E in Et. unfold dvals in Et. cbn [map zsum] in Et. lia. }
  assert (Hv : valid_counts m c).
  { split; [exact Hne|]. split.
    - replace (map (fun kv => strip (fst kv)) c) with (map fst c); [exact Kn|]. apply map_ext_in. intros [k v] Hi. cbn. symmetry. apply strip_bits. apply (Hk k). apply in_map_iff. exists (k, v). auto.
    - intros k v Hi. destruct (Hk k) as [A B]; [apply in_map_iff; exists (k, v); auto|]. rewrite strip_bits by exact B. split; assumption. }
  destruct (marginal_counts_exact_lemma m c [j] [j] false Hv) as (sub & Es & Eg & _).
  { split; [repeat constructor|reflexivity]. }
  { intros q [<-|[]]. exact Hj. }
  { discriminate. }
  unfold point. rewrite Et. fold c. replace (marginal_counts c (Some [j]) false) with (Ok sub : result counts) by (symmetry; exact Es). cbn [bind].
  destruct (Z.eqb_spec (pooled rs name (fun _ => true)) 0) as [E0|_]; [lia|]. rewrite (Eg [bitch o]), (marg_spec_bit m c j o Hk), Ew.
  set (a := pooled rs name (bit_is j o)). set (n := pooled rs name (fun _ => true)) in *.
  assert (Hle : (0 <= a <= n)%Z). { unfold a, n. rewrite !pooled_found. apply zsum_le. intros c' Hc. apply (wsum_le m). apply Hbc, Hc. }
  assert (Hn0 : ~ inject_Z n == 0) by (unfold inject_Z, Qeq; cbn; lia).
  eexists _, _. split; [reflexivity|]. split; [reflexivity|].
  assert (Hp : (0 <= inject_Z a / inject_Z n <= 1)%Q).
  { split; [apply Qle_shift_div_l|apply Qle_shift_div_r]; rewrite ?Qmult_0_l, ?Qmult_1_l; unfold inject_Z, Qlt, Qle; cbn; lia. }
  split; [exact Hp|]. set (p := (inject_Z a / inject_Z n)%Q) in *.
  assert (Ev : Q2R (p * (1 - p) / inject_Z n) = (Q2R p * (1 - Q2R p) / IZR n)%R).
  { unfold Qdiv. rewrite !Q2R_mult, Q2R_minus, Q2R_inv by exact Hn0. replace (Q2R 1) with 1%R by (unfold Q2R; cbn; field). replace (Q2R (inject_Z n)) with (IZR n) by (unfold Q2R; cbn; field). reflexivity. }
  assert (Pn : (0 <= Q2R (p * (1 - p) / inject_Z n))%R).
  { rewrite Ev. destruct Hp as [H0 H1]. apply Qle_Rle in H0. apply Qle_Rle in H1. replace (Q2R 0) with 0%R in H0 by (unfold Q2R; cbn; field). replace (Q2R 1) with 1%R in H1 by (unfold Q2R; cbn; field).
    assert (0 < IZR n)%R by (apply IZR_lt; lia). apply Rmult_le_pos; [apply Rmult_le_pos; lra|]. left. apply Rinv_0_lt_compat. assumption. }
  unfold error_bar. rewrite <- Ev. set (x := Q2R (p * (1 - p) / inject_Z n)) in *. destruct (Req_EM_T (sqrt x) 0) as [E|E].
  - split; [lra|]. split; [|reflexivity]. intros Hx. exfalso. apply Hx. apply sqrt_eq_0; assumption.
  - split; [pose proof (sqrt_pos x); lra|]. split; [reflexivity|]. intros Hx. exfalso. apply E. rewrite Hx. apply sqrt_0.
Qed.

(** All data points. *)
Lemma index_ok {A} (l : list A) i : i < length l -> exists a, index_e l i = Ok a /\ nth_error l i = Some a.
Proof. intros H. unfold index_e. destruct (nth_error l i) eqn:E; [exists a; auto|]. apply nth_error_None in E. lia. Qed.
Lemma mapM_seq {B} (f : nat -> result B) n (P : nat -> B -> Prop) : (forall i, i < n -> exists b, f i = Ok b /\ P i b) ->
  exists bs, mapM f (seq 0 n) = Ok bs /\ length bs = n /\ forall i, i < n -> exists b, nth_error bs i = Some b /\ P i b.
Proof.
  intros H. assert (G : forall n k, (forall i, k <= i < k + n -> exists b, f i = Ok b /\ P i b) -> exists bs, mapM f (seq k n) = Ok bs /\ length bs = n /\ forall i, i < n -> exists b, nth_error bs i = Some b /\ P (k + i) b).
  { clear. induction n as [|n IH]; intros k H; cbn [seq mapM]; [exists []; split; [reflexivity|]; split; [reflexivity|]; intros; lia|].
    destruct (H k) as (b & E & Hb); [lia|]. destruct (IH (S k)) as (bs & E' & L & Hbs); [intros i Hi; apply H; lia|]. exists (b :: bs). rewrite E, E'. split; [reflexivity|]. split; [cbn; lia|].
    intros [|i] Hi; [exists b; rewrite Nat.add_0_r; auto|]. cbn. destruct (Hbs i) as (b' & E2 & H2); [lia|]. exists b'. split; [exact E2|]. replace (k + S i) with (S k + i) by lia. exact H2. }
  apply (G n 0). intros i Hi. apply H. lia.
Qed.
Lemma mapM_list {A B} (f : A -> result B) l (P : A -> B -> Prop) : (forall a, In a l -> exists b, f a = Ok b /\ P a b) ->
  exists bs, mapM f l = Ok bs /\ length bs = length l /\ forall i a, nth_error l i = Some a -> exists b, nth_error bs i = Some b /\ P a b.
Proof.
  induction l as [|a l IH]; intros H; cbn [mapM]; [exists []; split; [reflexivity|]; split; [reflexivity|]; intros [|i] a; discriminate|].
  destruct (H a (or_introl eq_refl)) as (b & E & Hb). destruct (IH (fun x Hx => H x (or_intror Hx))) as (bs & E' & L & Hbs). exists (b :: bs). rewrite E, E'. split; [reflexivity|]. split; [cbn; lia|].
  intros [|i] x Hx; cbn in *; [injection Hx as <-; exists b; auto|apply Hbs; exact Hx].
Qed.

Lemma calc_lemma f m o : f_expected f = [bitch o] -> f_nq f <= m -> f_npts f <= length (f_names f) ->
  (forall s i n, In s (f_series f) -> i < f_npts f -> nth_error (f_names f) i = Some n -> valid_run (f_results f) (n ++ s) m) ->
  exists ys, calc_data f = Ok ys /\ length ys = length (f_series f) /\
  forall si s j i n, nth_error (f_series f) si = Some s -> j < f_nq f -> i < f_npts f -> nth_error (f_names f) i = Some n ->
  exists qs pts p e, nth_error ys si = Some (s, qs) /\ nth_error qs j = Some pts /\ nth_error pts i = Some (p, e) /\ length qs = f_nq f /\ length pts = f_npts f /\
    let total := pooled (f_results f) (n ++ s) (fun _ => true) in
    p == inject_Z (pooled (f_results f) (n ++ s) (bit_is j o)) / inject_Z total /\ (0 <= p <= 1)%Q /\ error_bar p total e.
Proof.
  intros He Hq Hp Hv. unfold calc_data.
  destruct (mapM_list (fun s => mapM (fun i => do n <- index_e (f_names f) i; Ok (n ++ s)) (seq 0 (f_npts f))) (f_series f) (fun _ _ => True)) as (nm & E1 & _).
  { intros s Hs. destruct (mapM_seq (fun i => do n <- index_e (f_names f) i; Ok (n ++ s)) (f_npts f) (fun _ _ => True)) as (bs & E & _); [|exists bs; auto].
    intros i Hi. destruct (index_ok (f_names f) i) as (n & En & _); [lia|]. exists (n ++ s). rewrite En. auto. }
  rewrite E1. cbn [bind].
  match goal with |- context[mapM ?g (f_series f)] => destruct (mapM_list g (f_series f) (fun s sq => fst sq = s /\ length (snd sq) = f_nq f /\ forall j i n, j < f_nq f -> i < f_npts f -> nth_error (f_names f) i = Some n ->
    exists pts p e, nth_error (snd sq) j = Some pts /\ length pts = f_npts f /\ nth_error pts i = Some (p, e) /\
      p == inject_Z (pooled (f_results f) (n ++ s) (bit_is j o)) / inject_Z (pooled (f_results f) (n ++ s) (fun _ => true)) /\ (0 <= p <= 1)%Q /\ error_bar p (pooled (f_results f) (n ++ s) (fun _ => true)) e)) as (ys & E2 & L & Hys) end.
  2:{ exists ys. split; [exact E2|]. split; [exact L|]. intros si s j i n Hs Hj Hi Hn. destruct (Hys si s Hs) as ([s' qs] & Ey & Es & Lq & Hqs). cbn [fst snd] in *. subst s'.
      destruct (Hqs j i n Hj Hi Hn) as (pts & p & e & A & B & D & E). exists qs, pts, p, e. cbv zeta. auto 10. }
  intros s Hs.
  destruct (mapM_seq (fun qind => mapM (fun i => do n <- index_e (f_names f) i; point (build_counts (found (f_results f) (n ++ s))) (f_expected f) qind) (seq 0 (f_npts f))) (f_nq f)
    (fun j pts => length pts = f_npts f /\ forall i n, i < f_npts f -> nth_error (f_names f) i = Some n -> exists p e, nth_error pts i = Some (p, e) /\
      p == inject_Z (pooled (f_results f) (n ++ s) (bit_is j o)) / inject_Z (pooled (f_results f) (n ++ s) (fun _ => true)) /\ (0 <= p <= 1)%Q /\ error_bar p (pooled (f_results f) (n ++ s) (fun _ => true)) e)) as (qs & E3 & Lq & Hqs).
  - intros j Hj. destruct (mapM_seq (fun i => do n <- index_e (f_names f) i; point (build_counts (found (f_results f) (n ++ s))) (f_expected f) j) (f_npts f)
      (fun i pe => forall n, nth_error (f_names f) i = Some n -> fst pe == inject_Z (pooled (f_results f) (n ++ s) (bit_is j o)) / inject_Z (pooled (f_results f) (n ++ s) (fun _ => true)) /\ (0 <= fst pe <= 1)%Q /\ error_bar (fst pe) (pooled (f_results f) (n ++ s) (fun _ => true)) (snd pe))) as (pts & E4 & Lp & Hpts).
    + intros i Hi. destruct (index_ok (f_names f) i) as (n & En & En'); [lia|]. destruct (point_lemma (f_results f) (n ++ s) m j o (Hv s i n Hs Hi En') ltac:(lia)) as (p & e & Ep & H1 & H2 & H3).
      exists (p, e). rewrite En, He. cbn [bind]. split; [exact Ep|]. intros n' Hn'. rewrite En' in Hn'. injection Hn' as <-. auto.
    + exists pts. split; [exact E4|]. split; [exact Lp|]. intros i n Hi Hn. destruct (Hpts i Hi) as ([p e] & Ei & H). exists p, e. split; [exact Ei|]. exact (H n Hn).
  - exists (s, qs). rewrite E3. cbn [bind fst snd]. split; [reflexivity|]. split; [reflexivity|]. split; [exact Lq|].
    intros j i n Hj Hi Hn. destruct (Hqs j Hj) as (pts & Ej & Lp & Hpts). destruct (Hpts i n Hi Hn) as (p & e & A & B). exists pts, p, e. auto.
Qed.

(** Histories. *)
Lemma add_results_all calls : forall f, f_results (fold_left add_results calls f) = f_results f ++ concat calls /\
  f_names (fold_left add_results calls f) = f_names f /\ f_series (fold_left add_results calls f) = f_series f /\ f_expected (fold_left add_results calls f) = f_expected f /\
  f_nq (fold_left add_results calls f) = f_nq f /\ f_npts (fold_left add_results calls f) = f_npts f.
Proof.
  induction calls as [|r calls IH]; intros f; cbn [fold_left concat]; [rewrite app_nil_r; auto 10|]. destruct (IH (add_results f r)) as (A & B & D & E & G & H). rewrite A, B, D, E, G, H. cbn. rewrite app_assoc. auto 10.
Qed.

(** ** Exact frequencies *)
Lemma all_bits_key m : Permutation (all_bits m) (map key_of (cube m)).
Proof.
  apply NoDup_Permutation.
  - apply all_bits_NoDup.
  - assert (Hc : forall n, NoDup (cube n)).
    { induction n as [|n IH]; cbn; [constructor; [intros []|constructor]|]. apply NoDup_app_disjoint.
      - apply FinFun.Injective_map_NoDup; [intros x y E; injection E; auto|exact IH].
      - apply FinFun.Injective_map_NoDup; [intros x y E; injection E; auto|exact IH].
      - intros x Hx Hy. apply in_map_iff in Hx, Hy. destruct Hx as (a & <- & _), Hy as (b & E & _). discriminate. }
    apply FinFun.Injective_map_NoDup; [intros x y; apply key_of_inj|apply Hc].
  - intros s. rewrite all_bits_In, in_map_iff. split.
    + intros [L B]. exists (map (fun c => eqb c "1"%char) (rev s)). split; [|apply in_cube; rewrite map_length, rev_length; exact L].
      unfold key_of. rewrite <- map_rev, rev_involutive, map_map. rewrite <- (map_id s) at 2. apply map_ext_in. intros c Hc. destruct (B c Hc) as [->| ->]; reflexivity.
    + intros (os & <- & H). apply in_cube in H. unfold key_of. split; [rewrite map_length, rev_length; exact H|]. intros c Hc. apply in_map_iff in Hc. destruct Hc as (b & <- & _). destruct b; auto.
Qed.

(** A law that makes the bits independent, each of them with the weights [w]:
    the fraction of shots with bit [j] equal to [o] is [w o]. *)
Lemma IZR_zsum {A} (f : A -> Z) l : IZR (zsum (map f l)) = fsum (HF:=Fld_R) (map (fun a => IZR (f a)) l).
Proof. induction l as [|a l IH]; [reflexivity|]. cbn [map zsum]. rewrite fsum_cons, plus_IZR, IH. reflexivity. Qed.
Lemma fsum_Permutation {A} (f : A -> R) l l' : Permutation l l' -> fsum (HF:=Fld_R) (map f l) = fsum (HF:=Fld_R) (map f l').
Proof.
  induction 1 as [|a l l' H IH|a b l|l1 l2 l3 H1 IH1 H2 IH2]; cbn [map]; rewrite ?fsum_cons; try congruence. change (f b + (f a + fsum (HF:=Fld_R) (map f l)) = f a + (f b + fsum (HF:=Fld_R) (map f l)))%R. ring.
Qed.
Lemma nth_key j os : j < length os -> nth j (rev (key_of os)) "?"%char = bitch (nth j os false).
Proof.
  intros H. unfold key_of. rewrite <- map_rev, rev_involutive. rewrite (nth_indep _ "?"%char (bitch false)) by (rewrite map_length; exact H). apply (map_nth bitch).
Qed.
Lemma pst_fold (w : bool -> R) os : fold_right (fun o p => (w o * p)%R) 1%R os = pst (HF:=Fld_R) (fun _ => w) os.
Proof. induction os as [|o os IH]; [reflexivity|]. cbn [fold_right pst]. rewrite IH. reflexivity. Qed.

Lemma wsum_law m rs name ok (law : pystr -> R) : valid_run rs name m -> exact_shots rs name m law ->
  IZR (pooled rs name ok) = (IZR (pooled rs name (fun _ => true)) * fsum (HF:=Fld_R) (map (fun os => if ok (key_of os) then law (key_of os) else 0%R) (cube m)))%R.
Proof.
  intros [Hb _] [_ He].
  assert (Hbc : forall c', In c' (found rs name) -> bit_counts m c'). { intros c' Hc. destruct (found_In rs name c' Hc) as (r & Hr & E). exact (Hb r c' Hr E). }
  assert (Hn : forall c', In c' (found rs name) -> NoDup (map fst c')) by (intros c' Hc; apply (Hbc c' Hc)).
  destruct (build_keys (found rs name) Hn) as [Kn Kk].
  assert (Hk : forall y, In y (map fst (build_counts (found rs name))) -> length y = m /\ is_bits y). { intros y Hy. destruct (Kk y Hy) as (c' & Hc & Hy'). exact (bit_counts_keys m c' (Hbc c' Hc) y Hy'). }
  assert (Ew : forall ok', wsum ok' (build_counts (found rs name)) = pooled rs name ok'). { intros ok'. rewrite (wsum_build m ok' _ Hbc), pooled_found. reflexivity. }
  rewrite <- (Ew ok), (wsum_all m ok _ Kn Hk), IZR_zsum, (fsum_Permutation _ _ _ (all_bits_key m)), map_map.
  transitivity (fsum (HF:=Fld_R) (map (fun os => fmul (IZR (pooled rs name (fun _ => true))) (if ok (key_of os) then law (key_of os) else 0%R)) (cube m))); [|apply (fsum_map_mul (HF:=Fld_R))]. apply fsum_map_ext. intros os Hos. apply in_cube in Hos.
  destruct (ok (key_of os)).
  - change (fmul (IZR (pooled rs name (fun _ => true))) (law (key_of os))) with (IZR (pooled rs name (fun _ => true)) * law (key_of os))%R. rewrite <- (He os Hos). f_equal. rewrite <- (Ew (fun k => eqb k (key_of os))), (wsum_all m _ _ Kn Hk).
    symmetry. rewrite (zsum_map_ext _ (fun y => if eqb (key_of os) y then dget0 (build_counts (found rs name)) y else 0%Z)).
    + apply (zsum_pick (all_bits m) (key_of os) (fun y => dget0 (build_counts (found rs name)) y)); [apply all_bits_NoDup|]. apply (Permutation_in _ (Permutation_sym (all_bits_key m))). apply in_map. apply in_cube. exact Hos.
    + intros y _. destruct (eqb_spec y (key_of os)) as [->|H]; [rewrite eqb_refl; reflexivity|]. destruct (eqb_spec (key_of os) y) as [E|_]; [exfalso; apply H; symmetry; exact E|reflexivity].
  - cbn. ring.
Qed.
Lemma exact_fraction rs name m j o (w : bool -> R) (law : pystr -> R) : valid_run rs name m -> exact_shots rs name m law -> j < m -> (w false + w true = 1)%R ->
  (forall os, length os = m -> law (key_of os) = fold_right (fun o p => (w o * p)%R) 1%R os) ->
  (IZR (pooled rs name (bit_is j o)) / IZR (pooled rs name (fun _ => true)))%R = w o.
Proof.
  intros Hv He Hj Hw Hl. rewrite (wsum_law m rs name (bit_is j o) law Hv He).
  assert (E : fsum (HF:=Fld_R) (map (fun os => if bit_is j o (key_of os) then law (key_of os) else 0%R) (cube m)) = w o).
  { rewrite (fsum_map_ext (HF:=Fld_R) _ (fun x => if eqb (rd [j] x) [o] then pst (HF:=Fld_R) (fun _ => w) x else 0%R)).
    - pose proof (sum_pst_at (HF:=Fld_R) m [j]) as S. specialize (S ltac:(repeat constructor; intros []) ltac:(repeat constructor; exact Hj) [o] (fun _ => w) eq_refl (fun _ _ => Hw)).
      change (@f0 R Fld_R) with 0%R in S. rewrite S. cbn. ring.
    - intros os Hos. apply in_cube in Hos. unfold bit_is. rewrite nth_key by lia. unfold bitch. cbn [rd map].
      rewrite Hl by exact Hos. rewrite pst_fold.
      destruct (eqb_spec (if nth j os false then "1"%char else "0"%char) (if o then "1"%char else "0"%char)) as [E|E], (eqb_spec [nth j os false] [o]) as [E'|E']; try reflexivity.
      + exfalso. apply E'. f_equal. destruct (nth j os false), o; congruence.
      + exfalso. apply E. injection E' as ->. reflexivity. }
  rewrite E. destruct Hv as [_ Hp]. assert (0 < IZR (pooled rs name (fun _ => true)))%R by (apply IZR_lt; exact Hp). field. lra.
Qed.
