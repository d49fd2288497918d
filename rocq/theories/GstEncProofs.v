(** Encoding of gate sets in real vectors. *)
From Coq Require Import QArith Reals Lra.
From Coquelicot Require Import Coquelicot.
From Verif Require Import LinAlg Base ResultFacts PyStr CtmpSpec EntSpec LinInv TomoModel TomoFitModel TomoFitSpec TomoFitProofs TomoBornProofs TomoPsdSpec TomoPsdProofs TomoPtrProofs GstModel GstOptModel GstOptSpec GstPauliProofs.
Local Open Scope list_scope.
Local Open Scope nat_scope.

(** ** Matrices and lists *)
Lemma length_flat m : length (flat m) = m_rows m * m_cols m.
Proof.
  unfold flat. assert (G : forall r s, length (flat_map (fun i => map (m_at m i) (seq 0 (m_cols m))) (seq s r)) = r * m_cols m); [|apply G].
  induction r as [|r IH]; intros s; [reflexivity|]. cbn [seq flat_map]. rewrite app_length, map_length, seq_length, IH. reflexivity.
Qed.
Lemma nth_flat_map {A} (f : nat -> nat -> A) c dflt : forall r s i j, i < r -> j < c -> nth (i * c + j) (flat_map (fun i => map (f i) (seq 0 c)) (seq s r)) dflt = f (s + i) j.
Proof.
  induction r as [|r IH]; intros s i j Hi Hj; [lia|]. cbn [seq flat_map]. destruct i as [|i].
  - rewrite app_nth1 by (rewrite map_length, seq_length; lia). cbn [Nat.mul Nat.add]. rewrite Nat.add_0_r. rewrite (nth_indep _ dflt (f s 0)) by (rewrite map_length, seq_length; lia). rewrite (map_nth (f s) (seq 0 c) 0). rewrite seq_nth by lia. reflexivity.
  - rewrite app_nth2 by (rewrite map_length, seq_length; nia). rewrite map_length, seq_length. replace (S i * c + j - c) with (i * c + j) by nia. rewrite IH by lia. f_equal. lia.
Qed.
Lemma nth_flat m i j : i < m_rows m -> j < m_cols m -> nth (i * m_cols m + j) (flat m) (RtoC 0) = m_at m i j.
Proof. intros Hi Hj. unfold flat. rewrite nth_flat_map by assumption. reflexivity. Qed.
Lemma flat_ext m m' : m_rows m = m_rows m' -> m_cols m = m_cols m' -> (forall i j, i < m_rows m -> j < m_cols m -> m_at m i j = m_at m' i j) -> flat m = flat m'.
Proof.
  intros H1 H2 H. unfold flat. rewrite <- H1, <- H2. rewrite !flat_map_concat_map. f_equal. apply map_ext_in. intros i Hi. apply in_seq in Hi. apply map_ext_in. intros j Hj. apply in_seq in Hj. apply H; lia.
Qed.
Lemma list_ext {A} (d : A) l l' : length l = length l' -> (forall k, k < length l -> nth k l d = nth k l' d) -> l = l'.
Proof. intros H1 H2. apply (nth_ext l l' d d H1 H2). Qed.
Lemma flat_reshape l r c m : reshape l r c = Ok m -> flat m = l /\ m_rows m = r /\ m_cols m = c /\ forall i j, m_at m i j = nth (i * c + j) l (RtoC 0).
Proof.
  unfold reshape. destruct (Nat.eqb_spec (length l) (r * c)) as [E|]; [|discriminate]. intros H. injection H as <-. repeat split. apply (list_ext (RtoC 0)).
  - rewrite length_flat. cbn. lia.
  - rewrite length_flat. cbn [m_rows m_cols]. intros k Hk. assert (0 < c) by nia. pose proof (Nat.div_mod k c) as D. 
    assert (k / c < r) by (apply div_lt; lia). pose proof (Nat.mod_upper_bound k c). 
    rewrite D at 1 by lia. rewrite (Nat.mul_comm c). set (m := {| m_rows := r; m_cols := c; m_at := _ |}). pose proof (nth_flat m (k / c) (k mod c) H0 (H1 ltac:(lia))) as F. cbn [m_cols m_at m] in F. rewrite F. f_equal. lia.
Qed.
Lemma reshape_ok l r c : length l = r * c -> exists m, reshape l r c = Ok m.
Proof. intros H. unfold reshape. rewrite H, Nat.eqb_refl. eauto. Qed.

Lemma length_vec m : length (complex_matrix_to_vec m) = 2 * (m_rows m * m_cols m).
Proof. unfold complex_matrix_to_vec. rewrite app_length, !map_length, length_flat. lia. Qed.
Lemma vec_to_matrix v n : length v = 2 * (n * n) -> vec_to_complex_matrix v = Ok {| m_rows := n; m_cols := n; m_at := fun i j => (nth (i * n + j) v 0%R, nth (n * n + (i * n + j)) v 0%R) |}.
Proof.
  intros H. unfold vec_to_complex_matrix. assert (E : Nat.sqrt (length v / 2) = n) by (rewrite H, Nat.mul_comm, Nat.div_mul by lia; apply Nat.sqrt_square). rewrite E. replace (2 * n * n =? length v) with true by (symmetry; apply Nat.eqb_eq; lia). reflexivity.
Qed.
Lemma matrix_vec_matrix m n : m_rows m = n -> m_cols m = n -> exists m', vec_to_complex_matrix (complex_matrix_to_vec m) = Ok m' /\ m_rows m' = n /\ m_cols m' = n /\ same_entries n (m_at m') (m_at m).
Proof.
  intros H1 H2. rewrite (vec_to_matrix _ n) by (rewrite length_vec, H1, H2; reflexivity). eexists. split; [reflexivity|]. cbn [m_rows m_cols m_at]. repeat split. intros i j Hi Hj. unfold complex_matrix_to_vec.
  assert (L : length (flat m) = n * n) by (rewrite length_flat, H1, H2; reflexivity). assert (Hk : i * n + j < n * n) by nia.
  assert (L1 : length (map fst (flat m)) = n * n) by (rewrite map_length; exact L). rewrite app_nth1 by (rewrite L1; exact Hk). rewrite app_nth2 by (rewrite L1; lia). rewrite L1. replace (n * n + (i * n + j) - n * n) with (i * n + j) by lia.
  assert (E : nth (i * n + j) (flat m) (RtoC 0) = m_at m i j) by (rewrite <- H2 at 1; apply nth_flat; lia).
  transitivity (fst (nth (i * n + j) (flat m) (RtoC 0)), snd (nth (i * n + j) (flat m) (RtoC 0))); [|rewrite E; destruct (m_at m i j); reflexivity].
  f_equal; [exact (map_nth fst (flat m) (RtoC 0) (i * n + j))|exact (map_nth snd (flat m) (RtoC 0) (i * n + j))].
Qed.

(** ** Splitting *)
Lemma split_fold {A} (l : list A) : forall ls pre acc, l = pre ++ concat ls ->
  fold_left (fun acc s => (fst acc + s, snd acc ++ [firstn s (skipn (fst acc) l)])) (map (@length A) ls) (length pre, acc) = (length l, acc ++ ls).
Proof.
  induction ls as [|a ls IH]; intros pre acc H; cbn [map fold_left concat] in *.
  - rewrite H, !app_nil_r. reflexivity.
  - cbn [fst snd]. replace (firstn (length a) (skipn (length pre) l)) with a.
    + rewrite <- app_length. rewrite IH by (rewrite H, app_assoc; reflexivity). rewrite <- app_assoc. reflexivity.
    + rewrite H, skipn_app, Nat.sub_diag, skipn_all. cbn [app skipn]. rewrite firstn_app, Nat.sub_diag, firstn_all. cbn [firstn]. rewrite app_nil_r. reflexivity.
Qed.
Lemma list_sum_lengths {A} (ls : list (list A)) : list_sum (map (@length A) ls) = length (concat ls).
Proof. induction ls as [|a ls IH]; [reflexivity|]. cbn [map concat]. rewrite app_length, <- IH. reflexivity. Qed.
Lemma split_list_concat {A} (ls : list (list A)) : split_list (concat ls) (map (@length A) ls) = Ok ls.
Proof. unfold split_list. rewrite list_sum_lengths, Nat.eqb_refl. cbn [negb]. pose proof (split_fold (concat ls) ls [] [] eq_refl) as F. cbn [length app] in F. rewrite F. reflexivity. Qed.
Lemma cut {A} : forall sizes (l : list A), list_sum sizes = length l -> exists ls, concat ls = l /\ map (@length A) ls = sizes.
Proof.
  induction sizes as [|s sizes IH]; intros l H.
  - destruct l; [|discriminate]. exists []. split; reflexivity.
  - destruct (IH (skipn s l)) as (ls & E1 & E2); [rewrite skipn_length; change (s + list_sum sizes = length l) in H; lia|]. change (s + list_sum sizes = length l) in H. exists (firstn s l :: ls). cbn [concat map]. rewrite E1, E2, firstn_skipn, firstn_length. split; [reflexivity|]. f_equal. lia.
Qed.
Lemma mapM_tail {A B} (f : A -> result B) a b (l : list A) : mapM (fun i => do v <- index_e (a :: b :: l) (2 + i); f v) (seq 0 (length l)) = mapM f l.
Proof.
  assert (G : forall pre l, mapM (fun i => do v <- index_e (pre ++ l) i; f v) (seq (length pre) (length l)) = mapM f l).
  { clear. intros pre l. revert pre. induction l as [|x l IH]; intros pre; [reflexivity|]. cbn [length seq mapM]. unfold index_e at 1. rewrite nth_error_app2, Nat.sub_diag by lia. cbn [nth_error bind].
    destruct (f x) as [y|e]; [|reflexivity]. cbn [bind]. specialize (IH (pre ++ [x])). rewrite <- app_assoc, app_length in IH. cbn [app length] in IH. rewrite Nat.add_1_r in IH. rewrite IH. reflexivity. }
  rewrite <- (G [a; b] l). cbn [length app]. rewrite <- (seq_shift _ 1), <- (seq_shift _ 0). rewrite map_map.
  generalize (seq 0 (length l)) as s. induction s as [|i s IH]; [reflexivity|]. cbn [mapM map]. rewrite IH. reflexivity.
Qed.

(** ** The decomposition *)
Section Schur.
Variables (dim : nat) (m t z : nat -> nat -> C).
Hypothesis SF : schur_form dim m t z.
Hypothesis P : psd dim m.
Definition form (x y : nat -> C) : C := csumn dim (fun a => csumn dim (fun b => fmul (fmul (Cconj (x a)) (m a b)) (y b))).
Lemma form_cols i j : i < dim -> j < dim -> form (fun a => z a i) (fun b => z b j) = t i j.
Proof.
  intros Hi Hj. unfold form.
  transitivity (csumn dim (fun a => csumn dim (fun b => csumn dim (fun k => csumn dim (fun l => fmul (t k l) (fmul (fmul (Cconj (z a i)) (z a k)) (fmul (Cconj (z b l)) (z b j)))))))).
  - apply csumn_ext. intros a Ha. apply csumn_ext. intros b Hb. rewrite (sf_product _ _ _ _ SF a b Ha Hb). rewrite <- csumn_mul, <- csumn_mul_r. apply csumn_ext. intros k _. rewrite <- csumn_mul, <- csumn_mul_r. apply csumn_ext. intros l _. ring.
  - transitivity (csumn dim (fun k => csumn dim (fun l => fmul (t k l) (fmul (csumn dim (fun a => fmul (Cconj (z a i)) (z a k))) (csumn dim (fun b => fmul (Cconj (z b l)) (z b j))))))).
    + transitivity (csumn dim (fun a => csumn dim (fun k => csumn dim (fun b => csumn dim (fun l => fmul (t k l) (fmul (fmul (Cconj (z a i)) (z a k)) (fmul (Cconj (z b l)) (z b j)))))))); [apply csumn_ext; intros a _; apply csumn_swap|].
      rewrite csumn_swap. apply csumn_ext. intros k _. 
      transitivity (csumn dim (fun a => csumn dim (fun l => csumn dim (fun b => fmul (t k l) (fmul (fmul (Cconj (z a i)) (z a k)) (fmul (Cconj (z b l)) (z b j))))))); [apply csumn_ext; intros a _; apply csumn_swap|].
      rewrite csumn_swap. apply csumn_ext. intros l _. rewrite <- csumn_prod, <- csumn_mul. apply csumn_ext. intros a _. rewrite <- csumn_mul. reflexivity.
    + rewrite (csumn_ext dim _ (fun k => if i =? k then csumn dim (fun l => if j =? l then t k l else f0) else f0)).
      * rewrite !csumn_pick by assumption. reflexivity.
      * intros k Hk. destruct (Nat.eqb_spec i k) as [->|N].
        -- apply csumn_ext. intros l Hl. rewrite !(sf_unitary _ _ _ _ SF) by assumption. rewrite Nat.eqb_refl, (Nat.eqb_sym l j). destruct (j =? l); ring.
        -- apply csumn_zero. intros l Hl. rewrite (sf_unitary _ _ _ _ SF i k) by assumption. destruct (Nat.eqb_spec i k); [lia|]. ring.
Qed.
Lemma form_real u : exists r, (0 <= r)%R /\ form u u = RtoC r. Proof. exact (P u). Qed.
Lemma diag_real j : j < dim -> exists r, (0 <= r)%R /\ t j j = RtoC r.
Proof. intros Hj. destruct (form_real (fun a => z a j)) as (r & Hr & E). rewrite form_cols in E by assumption. eauto. Qed.
Lemma form_add_mix x y b : form (fun a => fadd (x a) (fmul b (y a))) (fun a => fadd (x a) (fmul b (y a))) =
  fadd (fadd (form x x) (fmul b (form x y))) (fadd (fmul (Cconj b) (form y x)) (fmul (fmul (Cconj b) b) (form y y))).
Proof.
  unfold form. rewrite <- !csumn_mul, <- !csumn_add. apply csumn_ext. intros a _. rewrite <- !csumn_mul, <- !csumn_add. apply csumn_ext. intros c _. rewrite cj_add, cj_mul. ring.
Qed.
Lemma off_zero i j : i < j -> j < dim -> t i j = f0.
Proof.
  intros Hij Hj. assert (Hi : i < dim) by lia. destruct (diag_real i Hi) as (ri & _ & Ei). destruct (diag_real j Hj) as (rj & _ & Ej). pose proof (sf_upper _ _ _ _ SF j i Hij Hj) as Z.
  destruct (form_real (fun a => fadd (z a i) (fmul f1 (z a j)))) as (r1 & _ & E1). destruct (form_real (fun a => fadd (z a i) (fmul Ci (z a j)))) as (r2 & _ & E2).
  rewrite form_add_mix, !form_cols, Ei, Ej, Z in E1, E2 by assumption. apply (f_equal snd) in E1, E2. cbn in E1, E2. apply injective_projections; cbn; lra.
Qed.
Lemma diagonal a b : a < dim -> b < dim -> m a b = csumn dim (fun k => fmul (t k k) (fmul (z a k) (Cconj (z b k)))).
Proof.
  intros Ha Hb. rewrite (sf_product _ _ _ _ SF a b Ha Hb). apply csumn_ext. intros k Hk. rewrite (csumn_ext dim _ (fun j => if k =? j then fmul (t k j) (fmul (z a k) (Cconj (z b j))) else f0)).
  - apply (csumn_pick dim k (fun j => fmul (t k j) (fmul (z a k) (Cconj (z b j))))). exact Hk.
  - intros j Hj. destruct (Nat.eqb_spec k j) as [->|N]; [ring|]. replace (t k j) with (f0 (F:=C)); [ring|]. symmetry. destruct (Nat.lt_ge_cases k j); [apply off_zero; assumption|apply (sf_upper _ _ _ _ SF); lia].
Qed.
End Schur.

Lemma csqrt_real r : (0 <= r)%R -> np_csqrt (RtoC r) = RtoC (sqrt r).
Proof.
  intros H. unfold np_csqrt. cbn [fst snd RtoC]. destruct (Rlt_dec 0 0); [lra|]. replace (r * r + 0 * 0)%R with (r * r)%R by lra. rewrite sqrt_square by exact H. apply injective_projections; cbn.
  - f_equal. lra.
  - replace ((r - r) / 2)%R with 0%R by lra. apply sqrt_0.
Qed.
Lemma c_neg_real r : (0 <= r)%R -> c_neg (RtoC r) = false.
Proof. intros H. unfold c_neg. cbn [fst snd RtoC]. destruct (Rlt_dec r 0); [lra|]. destruct (Req_EM_T r 0); [|reflexivity]. destruct (Rlt_dec 0 0); [lra|reflexivity]. Qed.

Lemma cholesky_lemma schur m : schur_form (m_rows m) (m_at m) (fst (schur m)) (snd (schur m)) -> psd (m_rows m) (m_at m) ->
  let k := cholesky_like schur m in m_rows k = m_rows m /\ m_cols k = m_rows m /\ same_entries (m_rows m) (m_at (times_adj k)) (m_at m).
Proof.
  unfold cholesky_like. destruct (schur m) as [t z]. cbn [fst snd]. intros SF P. cbn [m_rows m_cols times_adj m_at]. repeat split. intros a b Ha Hb. rewrite (diagonal _ _ t z SF P a b Ha Hb). rewrite sum_to_csumn. apply csumn_ext. intros k Hk.
  destruct (diag_real _ _ t z SF P k Hk) as (r & Hr & E). rewrite E. rewrite c_neg_real, csqrt_real by exact Hr. repeat change (Cmult ?x ?y) with (fmul x y). rewrite cj_mul.
  replace (Cconj (RtoC (sqrt r))) with (RtoC (sqrt r)) by (apply injective_projections; cbn; lra).
  transitivity (fmul (fmul (RtoC (sqrt r)) (RtoC (sqrt r))) (fmul (z a k) (Cconj (z b k)))); [ring|]. f_equal. change (Cmult (RtoC (sqrt r)) (RtoC (sqrt r)) = RtoC r). rewrite <- RtoC_mult, sqrt_sqrt by exact Hr. reflexivity.
Qed.
Lemma times_adj_psd t : psd (m_rows t) (m_at (times_adj t)).
Proof.
  apply (gram_psd _ _ 1%R (seq 0 (m_cols t)) (fun k a => m_at t a k)); [lra|]. intros a b _ _. cbn [times_adj m_at]. rewrite sum_to_csumn. unfold csumn. change (RtoC 1) with (f1 (F:=C)). rewrite fmul_1_l. reflexivity.
Qed.

(** ** Decoding *)
Lemma ds_pow q : (2 ^ q) ^ 2 = 4 ^ q. Proof. rewrite Nat.pow_2_r. apply pow4_sq. Qed.
Lemma pow16 q : 16 ^ q = 4 ^ q * 4 ^ q. Proof. rewrite <- Nat.pow_mul_l. reflexivity. Qed.
Lemma split_pieces q ve vr vgs : length ve = 2 * (2 ^ q * 2 ^ q) -> length vr = 2 * (2 ^ q * 2 ^ q) -> Forall (fun v => length v = 2 * (4 ^ q * 4 ^ q)) vgs ->
  exists te tr tgs Gs, vec_to_complex_matrix ve = Ok te /\ vec_to_complex_matrix vr = Ok tr /\ Forall2 (fun v t => vec_to_complex_matrix v = Ok t) vgs tgs /\
    Forall2 (fun t G => ptm_of_choi (times_adj t) = Ok G) tgs Gs /\ m_rows te = 2 ^ q /\ m_cols te = 2 ^ q /\ m_rows tr = 2 ^ q /\ m_cols tr = 2 ^ q /\
    Forall (fun t => m_rows t = 4 ^ q /\ m_cols t = 4 ^ q) tgs /\
    split_input_vector q (length vgs) (ve ++ vr ++ concat vgs) = Ok (flat (times_adj te), flat (times_adj tr), Gs).
Proof.
  intros H1 H2 H3.
  destruct (mapM_total vec_to_complex_matrix (fun v t => vec_to_complex_matrix v = Ok t /\ m_rows t = 4 ^ q /\ m_cols t = 4 ^ q) vgs) as (tgs & Et & F).
  { intros v Hv. rewrite Forall_forall in H3. rewrite (vec_to_matrix v (4 ^ q)) by (apply H3; exact Hv). eexists. split; [reflexivity|]. repeat split. }
  assert (Ft : Forall (fun t => m_rows t = 4 ^ q /\ m_cols t = 4 ^ q) tgs). { clear -F. induction F as [|? ? ? ? [_ H]]; constructor; assumption. }
  destruct (mapM_total (fun t => ptm_of_choi (times_adj t)) (fun t G => ptm_of_choi (times_adj t) = Ok G) tgs) as (Gs & EG & FG).
  { intros t Ht. rewrite Forall_forall in Ft. destruct (Ft t Ht) as [A B]. destruct (ptm_of_choi_ok (times_adj t) q) as (m & E & _); [exact A|exact A|]. rewrite E. eauto. }
  exists {| m_rows := 2 ^ q; m_cols := 2 ^ q; m_at := fun i j => (nth (i * 2 ^ q + j) ve 0%R, nth (2 ^ q * 2 ^ q + (i * 2 ^ q + j)) ve 0%R) |},
         {| m_rows := 2 ^ q; m_cols := 2 ^ q; m_at := fun i j => (nth (i * 2 ^ q + j) vr 0%R, nth (2 ^ q * 2 ^ q + (i * 2 ^ q + j)) vr 0%R) |}, tgs, Gs.
  pose proof (vec_to_matrix ve (2 ^ q) H1) as E1. pose proof (vec_to_matrix vr (2 ^ q) H2) as E2.
  set (te := {| m_rows := 2 ^ q; m_cols := 2 ^ q; m_at := fun i j => (nth (i * 2 ^ q + j) ve 0%R, nth (2 ^ q * 2 ^ q + (i * 2 ^ q + j)) ve 0%R) |}) in *.
  set (tr := {| m_rows := 2 ^ q; m_cols := 2 ^ q; m_at := fun i j => (nth (i * 2 ^ q + j) vr 0%R, nth (2 ^ q * 2 ^ q + (i * 2 ^ q + j)) vr 0%R) |}) in *.
  repeat (split; [first [assumption|reflexivity|clear -F; induction F as [|? ? ? ? [H _]]; constructor; assumption]|]).
  unfold split_input_vector. rewrite !ds_pow, Nat.pow_2_r.
  replace ([2 * 4 ^ q; 2 * 4 ^ q] ++ repeat (2 * (4 ^ q * 4 ^ q)) (length vgs)) with (map (@length R) (ve :: vr :: vgs)).
  2:{ cbn [map app]. rewrite H1, H2, !pow4_sq. do 2 f_equal. clear -H3. induction H3 as [|v vgs H _ IH]; [reflexivity|]. cbn [map length repeat]. rewrite H, IH. reflexivity. }
  replace (ve ++ vr ++ concat vgs) with (concat (ve :: vr :: vgs)) by reflexivity. rewrite split_list_concat. cbn [bind]. unfold index_e at 1 2. cbn [nth_error bind]. rewrite E1. cbn [bind]. rewrite E2. cbn [bind].
  rewrite mapM_tail, Et. cbn [bind].
  destruct (reshape_ok (flat (times_adj te)) 1 (4 ^ q)) as (e & Ee); [rewrite length_flat; cbn; rewrite pow4_sq; lia|].
  destruct (reshape_ok (flat (times_adj tr)) (4 ^ q) 1) as (r & Er); [rewrite length_flat; cbn; rewrite pow4_sq; lia|].
  rewrite Ee, Er. cbn [bind]. rewrite EG. cbn [bind]. rewrite (proj1 (flat_reshape _ _ _ _ Ee)), (proj1 (flat_reshape _ _ _ _ Er)). reflexivity.
Qed.
Lemma square_flat d m : m_rows m = d -> m_cols m = d -> same_entries d (square d (flat m)) (m_at m).
Proof. intros H1 H2 i j Hi Hj. unfold square. rewrite <- H2 at 1. apply nth_flat; lia. Qed.
Lemma same_sym d A B : same_entries d A B -> same_entries d B A. Proof. intros H i j Hi Hj. symmetry. apply H; assumption. Qed.
Lemma same_trans d A B D : same_entries d A B -> same_entries d B D -> same_entries d A D. Proof. intros H1 H2 i j Hi Hj. rewrite H1, H2 by assumption. reflexivity. Qed.

Lemma decoding_lemma q n x : length x = vec_length q n -> exists E rho Gs, split_input_vector q n x = Ok (E, rho, Gs) /\ length Gs = n /\ expressible q E rho Gs.
Proof.
  intros H. destruct (cut ([2 * (2 ^ q * 2 ^ q); 2 * (2 ^ q * 2 ^ q)] ++ repeat (2 * (4 ^ q * 4 ^ q)) n) x) as (ls & E1 & E2).
  { rewrite H. unfold vec_length. rewrite list_sum_app. rewrite pow16, !pow4_sq. assert (S : forall k m, list_sum (repeat k m) = m * k) by (intros k m; induction m as [|m IH]; [reflexivity|cbn [repeat]; change (k + list_sum (repeat k m) = S m * k); rewrite IH; reflexivity]). rewrite S. cbn [list_sum fold_right]. lia. }
  destruct ls as [|ve ls]; [discriminate|]. destruct ls as [|vr vgs]; [discriminate|]. cbn [map app] in E2. injection E2 as L1 L2 L3.
  assert (Ln : length vgs = n) by (apply (f_equal (@length nat)) in L3; rewrite map_length, repeat_length in L3; exact L3).
  assert (F : Forall (fun v => length v = 2 * (4 ^ q * 4 ^ q)) vgs).
  { apply Forall_forall. intros v Hv. apply (in_map (@length R)) in Hv. rewrite L3 in Hv. apply repeat_spec in Hv. exact Hv. }
  destruct (split_pieces q ve vr vgs L1 L2 F) as (te & tr & tgs & Gs & A1 & A2 & A3 & A4 & B1 & B2 & B3 & B4 & B5 & S). rewrite Ln in S.
  cbn [concat] in E1. rewrite E1 in S. do 3 eexists. split; [exact S|]. split; [rewrite <- Ln, (Forall2_length' _ _ _ A3), (Forall2_length' _ _ _ A4); reflexivity|].
  constructor.
  - rewrite length_flat. cbn. rewrite B1. apply pow4_sq.
  - rewrite length_flat. cbn. rewrite B3. apply pow4_sq.
  - apply (psd_ext _ (m_at (times_adj te))); [apply same_sym, square_flat; cbn; assumption|]. rewrite <- B1. apply times_adj_psd.
  - apply (psd_ext _ (m_at (times_adj tr))); [apply same_sym, square_flat; cbn; assumption|]. rewrite <- B3. apply times_adj_psd.
  - clear -A4 B5. induction A4 as [|t G ts Gs H _ IH]; [constructor|]. inversion B5 as [|? ? [R1 R2] B5']; subst. constructor; [|apply IH; exact B5'].
    destruct (choi_ptm_choi (times_adj t) q) as (m & E & Q1 & Q2 & Q3); [exact R1|exact R1|]. rewrite H in E. injection E as <-. repeat (split; [assumption|]).
    unfold completely_positive. apply (psd_ext _ (m_at (times_adj t))); [apply same_sym; exact Q3|]. rewrite <- R1. apply times_adj_psd.
Qed.
Lemma decoding_error q n x : length x <> vec_length q n -> split_input_vector q n x = Err RuntimeError.
Proof.
  intros H. unfold split_input_vector, split_list.
  assert (S : forall k m, list_sum (repeat k m) = m * k) by (intros k m; induction m as [|m IH]; [reflexivity|cbn [repeat]; change (k + list_sum (repeat k m) = S m * k); rewrite IH; reflexivity]).
  rewrite list_sum_app, S, !ds_pow, Nat.pow_2_r. cbn [list_sum fold_right]. destruct (Nat.eqb_spec (2 * 4 ^ q + (2 * 4 ^ q + 0) + n * (2 * (4 ^ q * 4 ^ q))) (length x)) as [E|]; [|reflexivity].
  exfalso. apply H. unfold vec_length. rewrite pow16. lia.
Qed.

(** ** Encoding *)
Lemma times_adj_ext t t' : m_rows t = m_rows t' -> m_cols t = m_cols t' -> m_rows t = m_cols t -> same_entries (m_rows t) (m_at t) (m_at t') -> same_entries (m_rows t) (m_at (times_adj t)) (m_at (times_adj t')).
Proof. intros H1 H2 H3 H i j Hi Hj. cbn [times_adj m_at]. rewrite !sum_to_csumn, <- H2. apply csumn_ext. intros k Hk. rewrite !H by lia. reflexivity. Qed.
Section Enc.
Variable schur : cmat -> (nat -> nat -> C) * (nat -> nat -> C).
(** Encoding one positive matrix and decoding it. *)
Lemma code_matrix m n M : m_rows m = n -> m_cols m = n -> same_entries n (m_at m) M -> schur_on schur n M -> psd n (m_at m) ->
  length (complex_matrix_to_vec (cholesky_like schur m)) = 2 * (n * n) /\
  exists t, vec_to_complex_matrix (complex_matrix_to_vec (cholesky_like schur m)) = Ok t /\ m_rows t = n /\ m_cols t = n /\ same_entries n (m_at (times_adj t)) (m_at m).
Proof.
  intros H1 H2 HM SC P. pose proof (SC m H1 H2 HM) as SF.
  pose proof (cholesky_lemma schur m) as CL. rewrite H1 in CL. destruct (CL SF P) as (K1 & K2 & K3). set (k := cholesky_like schur m) in *.
  split; [rewrite length_vec, K1, K2; reflexivity|]. destruct (matrix_vec_matrix k n K1 K2) as (t & E & T1 & T2 & T3). exists t. repeat (split; [assumption|]).
  apply (same_trans n _ (m_at (times_adj k))); [|exact K3]. rewrite <- T1. apply times_adj_ext; try congruence. rewrite T1. exact T3.
Qed.
Lemma encoding_lemma q E rho Gs : expressible q E rho Gs -> schur_on schur (2 ^ q) (square (2 ^ q) E) -> schur_on schur (2 ^ q) (square (2 ^ q) rho) ->
  Forall (fun G => schur_on schur (4 ^ q) (choi_matrix q (m_at G))) Gs -> exists x E' rho' Gs', join_input_vector schur q E rho Gs = Ok x /\ length x = vec_length q (length Gs) /\
  split_input_vector q (length Gs) x = Ok (E', rho', Gs') /\ E' = E /\ rho' = rho /\ Forall2 (fun G' G => m_rows G' = 4 ^ q /\ m_cols G' = 4 ^ q /\ same_entries (4 ^ q) (m_at G') (m_at G)) Gs' Gs.
Proof.
  intros [L1 L2 P1 P2 FG] SE SR SG. unfold join_input_vector.
  destruct (reshape_ok E (2 ^ q) (2 ^ q)) as (e & Ee); [rewrite pow4_sq; exact L1|]. destruct (reshape_ok rho (2 ^ q) (2 ^ q)) as (r & Er); [rewrite pow4_sq; exact L2|]. rewrite Ee, Er. cbn [bind].
  destruct (flat_reshape _ _ _ _ Ee) as (Fe & Re & Ce & Ae). destruct (flat_reshape _ _ _ _ Er) as (Fr & Rr & Cr & Ar).
  destruct (mapM_total choi_of_ptm (fun G k => m_rows k = 4 ^ q /\ m_cols k = 4 ^ q /\ same_entries (4 ^ q) (m_at k) (choi_matrix q (m_at G)) /\ psd (4 ^ q) (m_at k) /\ schur_on schur (4 ^ q) (choi_matrix q (m_at G))) Gs) as (ks & Ek & Fk).
  { intros G HG. rewrite Forall_forall in FG, SG. destruct (FG G HG) as (A & B & Cp). destruct (choi_spec G q A B) as (k & K1 & K2 & K3 & K4). exists k. split; [exact K1|]. repeat (split; [assumption|]). split; [apply (psd_ext _ (choi_matrix q (m_at G))); [apply same_sym; exact K4|exact Cp]|apply SG; exact HG]. }
  rewrite Ek. cbn [bind].
  assert (FA : forall ks acc, fold_left (fun acc k => acc ++ complex_matrix_to_vec (cholesky_like schur k)) ks acc = acc ++ concat (map (fun k => complex_matrix_to_vec (cholesky_like schur k)) ks)).
  { clear. induction ks as [|k ks IH]; intros acc; cbn; [rewrite app_nil_r; reflexivity|]. rewrite IH, app_assoc. reflexivity. }
  rewrite FA, <- app_assoc. 
  destruct (code_matrix e (2 ^ q) (square (2 ^ q) E) Re Ce) as (Le & te & Te & Te1 & Te2 & Te3). { intros i j Hi Hj; apply Ae. } { exact SE. } { apply (psd_ext _ (square (2 ^ q) E)); [intros i j Hi Hj; symmetry; apply Ae|exact P1]. }
  destruct (code_matrix r (2 ^ q) (square (2 ^ q) rho) Rr Cr) as (Lr & tr & Tr & Tr1 & Tr2 & Tr3). { intros i j Hi Hj; apply Ar. } { exact SR. } { apply (psd_ext _ (square (2 ^ q) rho)); [intros i j Hi Hj; symmetry; apply Ar|exact P2]. }
  set (vgs := map (fun k => complex_matrix_to_vec (cholesky_like schur k)) ks).
  assert (Fl : Forall (fun v => length v = 2 * (4 ^ q * 4 ^ q)) vgs).
  { apply Forall_forall. intros v Hv. apply in_map_iff in Hv. destruct Hv as (k & <- & Hk). destruct (Forall2_in_r _ _ _ _ Fk Hk) as (G & _ & K1 & K2 & K3 & K4 & K5). apply (proj1 (code_matrix k (4 ^ q) _ K1 K2 K3 K5 K4)). }
  destruct (split_pieces q _ _ vgs Le Lr Fl) as (te' & tr' & tgs & Gs' & A1 & A2 & A3 & A4 & _ & _ & _ & _ & B5 & S).
  rewrite Te in A1. injection A1 as <-. rewrite Tr in A2. injection A2 as <-.
  assert (Lg : length vgs = length Gs) by (unfold vgs; rewrite map_length; symmetry; apply (Forall2_length' _ _ _ Fk)). rewrite Lg in S.
  do 4 eexists. split; [reflexivity|]. split.
  { rewrite !app_length, Le, Lr, !pow4_sq. unfold vec_length. rewrite pow16. rewrite <- Lg. clear -Fl. assert (X : length (concat vgs) = length vgs * (2 * (4 ^ q * 4 ^ q))) by (induction Fl as [|v l H _ IH]; [reflexivity|cbn [concat length]; rewrite app_length, H, IH; lia]). lia. }
  split; [exact S|]. split; [|split].
  - rewrite <- Fe. apply flat_ext; cbn [times_adj m_rows m_cols]; [congruence|congruence|]. rewrite Te1. exact Te3.
  - rewrite <- Fr. apply flat_ext; cbn [times_adj m_rows m_cols]; [congruence|congruence|]. rewrite Tr1. exact Tr3.
  - clear S FA Lg Ek Fl SG. unfold vgs in A3. clear vgs. revert tgs Gs' A3 A4 B5 FG. induction Fk as [|G k Gs ks (K1 & K2 & K3 & K4 & K5) Fk IH]; intros tgs Gs' A3 A4 B5 FG.
    + inversion A3; subst. inversion A4; subst. constructor.
    + cbn [map] in A3. inversion A3 as [|? t ? ts' E1 A3']; subst. inversion A4 as [|? G' ? Gs'' E2 A4']; subst. inversion B5 as [|? ? [R1 R2] B5']; subst. inversion FG as [|? ? (Q1 & Q2 & _) FG']; subst.
      constructor; [|apply (IH ts'); assumption].
      destruct (code_matrix k (4 ^ q) _ K1 K2 K3 K5 K4) as (_ & t' & E1' & T1 & T2 & T3). rewrite E1 in E1'. injection E1' as <-.
      destruct (ptm_choi_ptm (m_at G) (times_adj t) q) as (m & Em & M1 & M2 & M3); [exact T1|exact T1|apply (same_trans _ _ (m_at k)); assumption|]. rewrite E2 in Em. injection Em as <-. repeat (split; [assumption|]). assumption.
Qed.
End Enc.
