(** The convex problem says what it should (C72). *)
From Coq Require Import QArith Reals Lra NArith.
From Coquelicot Require Import Coquelicot.
From Verif Require Import LinAlg Base ResultFacts CountsModel QSem DihedralModel RBSeqModel CtmpSpec StdGates EntSpec.
From Verif Require Import TomoModel TomoSpec TomoFitModel TomoFitSpec TomoPsdSpec TomoPtrSpec TomoPtrProofs TomoDataProofs TomoBornProofs TomoFitProofs CvxModel CvxSpec.
Local Open Scope list_scope.
Local Open Scope nat_scope.
Add Field FldFieldCvx : (fth (F:=C)).

Notation rs := (fsum (HF:=Fld_R)).
Lemma rsum_fsum l : rsum l = rs l.
Proof. induction l as [|a l IH]; [reflexivity|]. rewrite fsum_cons, <- IH. reflexivity. Qed.
Lemma Re_fsum {A} (f : A -> C) l : Re (fsum (map f l)) = rs (map (fun a => Re (f a)) l).
Proof. induction l as [|a l IH]; [reflexivity|]. cbn [map]. rewrite !fsum_cons, <- IH. reflexivity. Qed.
Lemma Im_fsum {A} (f : A -> C) l : Im (fsum (map f l)) = rs (map (fun a => Im (f a)) l).
Proof. induction l as [|a l IH]; [reflexivity|]. cbn [map]. rewrite !fsum_cons, <- IH. reflexivity. Qed.
Lemma rs_ext {A} (f g : A -> R) l : (forall a, In a l -> f a = g a) -> rs (map f l) = rs (map g l).
Proof. apply fsum_map_ext. Qed.
Lemma rs_add {A} (f g : A -> R) l : rs (map (fun a => f a + g a)%R l) = (rs (map f l) + rs (map g l))%R.
Proof. exact (fsum_map_add (HF:=Fld_R) f g l). Qed.
Lemma rs_mul {A} k (f : A -> R) l : rs (map (fun a => k * f a)%R l) = (k * rs (map f l))%R.
Proof. exact (fsum_map_mul (HF:=Fld_R) k f l). Qed.
Lemma rs_sub {A} (f g : A -> R) l : rs (map (fun a => f a - g a)%R l) = (rs (map f l) - rs (map g l))%R.
Proof. rewrite (rs_ext _ (fun a => f a + (-1) * g a)%R) by (intros; ring). rewrite rs_add, rs_mul. ring. Qed.
Lemma rs_two (f : nat -> R) n : rs (map f (seq 0 (2 * n))) = (rs (map f (seq 0 n)) + rs (map (fun k => f (n + k)%nat) (seq 0 n)))%R.
Proof.
  replace (2 * n) with (n + n) by lia. rewrite seq_app, map_app.
  replace (seq (0 + n) n) with (map (fun k => n + k) (seq 0 n)).
  - rewrite map_map. exact (fsum_app (HF:=Fld_R) _ _).
  - cbn [Nat.add]. generalize n at 1 3 as s. intros s. induction n as [|k IH]; [reflexivity|]. rewrite !seq_S, map_app, IH. reflexivity.
Qed.

(** * The objective *)
Lemma dot_nth (row x : list C) n : length row = n -> length x = n -> dot row x = fsum (map (fun k => fmul (nth k row (RtoC 0)) (nth k x (RtoC 0))) (seq 0 n)).
Proof.
  revert x n. induction row as [|a row IH]; intros [|b x] n H1 H2; cbn in H1, H2; try lia; subst n; [reflexivity|].
  cbn [length seq map]. unfold dot. cbn [combine map fst snd]. rewrite !fsum_cons. f_equal. fold (dot row x). rewrite (IH x (length row)) by lia. rewrite <- seq_shift, map_map. reflexivity.
Qed.
Lemma nth_vec dim m k : k < dim * dim -> nth k (vec dim m) (RtoC 0) = m (k mod dim) (k / dim).
Proof.
  intros H. unfold vec. rewrite (nth_indep _ _ (m (0 mod dim) (0 / dim))) by now rewrite map_length, seq_length.
  rewrite (map_nth (fun k => m (k mod dim) (k / dim))), seq_nth by lia. reflexivity.
Qed.
Lemma arg_entry_re dim row y x : length row = dim * dim -> arg_entry dim row y x = (Re (dot row (vec dim (matrix_of x))) - y)%R.
Proof.
  intros H. rewrite (dot_nth row _ (dim * dim) H (length_vec dim _)), Re_fsum. unfold arg_entry, row_vec. rewrite !rsum_fsum. rewrite <- rs_sub. f_equal.
  apply rs_ext. intros k Hk. apply in_seq in Hk. rewrite nth_vec by lia. unfold matrix_of. reflexivity.
Qed.
Definition scaled (w : option (list R)) : option (list R) := option_map unit_weights w.
Lemma weighted_system rows data w : weighted_rows w rows = fst (fit_system rows data (scaled w)) /\ map RtoC (weighted_data w data) = snd (fit_system rows data (scaled w)).
Proof. destruct w as [w|]; cbn; split; try reflexivity. rewrite map_map. reflexivity. Qed.
Lemma residual_re_nonneg a b x : (0 <= residual_re a b x)%R.
Proof. unfold residual_re. apply fsum_nonneg. intros p _. apply pow2_ge_0. Qed.
Lemma combine_map_r {A B D} (g : B -> D) (l : list A) : forall m, combine l (map g m) = map (fun p => (fst p, g (snd p))) (combine l m).
Proof. induction l as [|a l IH]; intros [|b m]; try reflexivity. cbn. now rewrite IH. Qed.
Lemma weighted_length dim w rows : Forall (fun r : list C => length r = dim * dim) rows -> Forall (fun r => length r = dim * dim) (weighted_rows w rows).
Proof.
  destruct w as [w|]; [|auto]. cbn. generalize (unit_weights w) as u. clear w. intros u H. revert u. induction H as [|r rows Hr _ IH]; intros [|a u]; cbn; constructor; auto. rewrite map_length. exact Hr.
Qed.
Lemma objective_re dim rows data w x : Forall (fun r => length r = dim * dim) rows ->
  objective dim (weighted_rows w rows) (weighted_data w data) x =
  sqrt (residual_re (fst (fit_system rows data (scaled w))) (snd (fit_system rows data (scaled w))) (vec dim (matrix_of x))).
Proof.
  intros H. destruct (weighted_system rows data w) as [<- <-]. apply (weighted_length dim w) in H. unfold objective, residual_re. f_equal. rewrite rsum_fsum, combine_map_r, map_map.
  apply rs_ext. intros [r y] Hin. cbn [fst snd]. rewrite Forall_forall in H. rewrite arg_entry_re by (apply H; eapply in_combine_l; exact Hin). reflexivity.
Qed.

(** Scaling all the weights. *)
Lemma unit_weights_scale rows data w x : let s := sqrt (rsum (map (fun x => x ^ 2)%R w)) in
  (residual_re (fst (fit_system rows data (Some (unit_weights w)))) (snd (fit_system rows data (Some (unit_weights w)))) x =
   (/ s) ^ 2 * residual_re (fst (fit_system rows data (Some w))) (snd (fit_system rows data (Some w))) x)%R.
Proof.
  intros s. unfold residual_re. rewrite <- rs_mul. cbn [fit_system fst snd]. unfold unit_weights. fold s. clearbody s.
  revert rows data. induction w as [|a w IH]; intros rows data; [reflexivity|]. destruct rows as [|r rows]; [reflexivity|]. destruct data as [|y data]; [reflexivity|].
  cbn [map combine fst snd]. rewrite !fsum_cons. specialize (IH rows data). cbn [fit_system fst snd] in IH. rewrite IH. f_equal.
  rewrite !dot_scale. unfold fsub, fadd, fopp, fmul. cbn. unfold Rdiv. ring.
Qed.
Lemma weight_sum_pos rows w : rows <> [] -> good_weights rows (Some w) -> (0 < sqrt (rsum (map (fun x => x ^ 2)%R w)))%R.
Proof.
  intros Hr [Hl Hp]. apply sqrt_lt_R0. destruct w as [|a w]; [destruct rows; [congruence|discriminate]|]. inversion Hp as [|? ? Ha Hw]; subst.
  cbn [map rsum fold_right]. assert (0 <= rsum (map (fun x => x ^ 2) w))%R by (rewrite rsum_fsum; apply fsum_nonneg; intros; apply pow2_ge_0). unfold rsum in *. nra.
Qed.
Lemma residual_order rows data w x y : rows <> [] -> good_weights rows w ->
  let res w x := residual_re (fst (fit_system rows data w)) (snd (fit_system rows data w)) x in
  (sqrt (res (scaled w) x) <= sqrt (res (scaled w) y))%R <-> (res w x <= res w y)%R.
Proof.
  intros Hr Hw res. transitivity (res (scaled w) x <= res (scaled w) y)%R.
  - split; [apply sqrt_le_0; apply residual_re_nonneg|apply sqrt_le_1; apply residual_re_nonneg].
  - destruct w as [w|]; [|reflexivity]. cbn [scaled option_map]. unfold res. rewrite !unit_weights_scale.
    pose proof (weight_sum_pos rows w Hr Hw) as Hs. set (s := sqrt _) in *. assert (0 < (/ s) ^ 2)%R by (apply pow_lt, Rinv_0_lt_compat, Hs). nra.
Qed.

(** * The constraints *)
Definition form (dim : nat) (m : nat -> nat -> C) (u : nat -> C) : C := fsum (map (fun a => fsum (map (fun b => fmul (fmul (Cconj (u a)) (m a b)) (u b)) (seq 0 dim))) (seq 0 dim)).
Lemma embedding dim x (z : nat -> R) (u : nat -> C) : (forall k, k < dim -> u k = (z k, z (dim + k))) ->
  rsum (map (fun a => rsum (map (fun b => z a * bmat dim x a b * z b)%R (seq 0 (2 * dim)))) (seq 0 (2 * dim))) = Re (form dim (matrix_of x) u).
Proof.
  intros Hu. unfold form. rewrite Re_fsum, rsum_fsum.
  rewrite (rs_ext _ (fun a => rs (map (fun b => z a * bmat dim x a b * z b)%R (seq 0 (2 * dim))))) by (intros; apply rsum_fsum).
  rewrite rs_two, <- rs_add. apply rs_ext. intros a Ha. apply in_seq in Ha. rewrite Re_fsum, !rs_two, <- !rs_add.
  apply rs_ext. intros b Hb. apply in_seq in Hb. rewrite !Hu by lia. unfold bmat, matrix_of.
  replace (a <? dim) with true by (symmetry; apply Nat.ltb_lt; lia). replace (b <? dim) with true by (symmetry; apply Nat.ltb_lt; lia).
  replace (dim + a <? dim) with false by (symmetry; apply Nat.ltb_ge; lia). replace (dim + b <? dim) with false by (symmetry; apply Nat.ltb_ge; lia).
  replace (dim + a - dim) with a by lia. replace (dim + b - dim) with b by lia. cbn. ring.
Qed.
Lemma form_real dim m u : hermitian dim m -> Cconj (form dim m u) = form dim m u.
Proof.
  intros H. unfold form. assert (G : forall {A} (f : A -> C) l, Cconj (fsum (map f l)) = fsum (map (fun a => Cconj (f a)) l)).
  { intros A f l. induction l as [|a l IH]; [apply cj_0|]. cbn [map]. rewrite !fsum_cons, cj_add, IH. reflexivity. }
  rewrite G. rewrite (fsum_map_ext _ (fun a => fsum (map (fun b => fmul (fmul (Cconj (u b)) (m b a)) (u a)) (seq 0 dim)))).
  - apply fsum_swap.
  - intros a Ha. rewrite G. apply fsum_map_ext. intros b Hb. apply in_seq in Ha, Hb. rewrite !cj_mul, cj_cj. rewrite (H b a) by lia. ring.
Qed.
Lemma real_of_conj (z : C) : Cconj z = z -> z = RtoC (Re z).
Proof. destruct z as [a b]. unfold Cconj, RtoC. cbn. intros E. injection E as E. f_equal. lra. Qed.
Lemma psd_cons_iff dim x : hermitian dim (matrix_of x) -> (psd_cons dim x <-> psd dim (matrix_of x)).
Proof.
  intros H. split.
  - intros P u. exists (Re (form dim (matrix_of x) u)). split; [|apply real_of_conj, form_real, H].
    specialize (P (fun k => if k <? dim then Re (u k) else Im (u (k - dim)))). rewrite (embedding dim x _ u) in P; [exact P|].
    intros k Hk. replace (k <? dim) with true by (symmetry; apply Nat.ltb_lt; lia). replace (dim + k <? dim) with false by (symmetry; apply Nat.ltb_ge; lia).
    replace (dim + k - dim) with k by lia. apply surjective_pairing.
  - intros P z. rewrite (embedding dim x z (fun k => (z k, z (dim + k)))) by reflexivity. destruct (P (fun k => (z k, z (dim + k)))) as (r & Hr & E). unfold form. rewrite E. exact Hr.
Qed.
Lemma hermitian_iff dim x : hermitian dim (matrix_of x) <-> symmetric_cons dim x /\ antisymmetric_cons dim x.
Proof.
  split.
  - intros H. split; intros i j Hi Hj; specialize (H i j Hi Hj); unfold matrix_of, Cconj in H; cbn in H; injection H as A B; assumption.
  - intros [A B] i j Hi Hj. unfold matrix_of, Cconj. cbn. rewrite (A i j), (B i j) by assumption. reflexivity.
Qed.
Lemma trace_cons_iff dim t x : hermitian dim (matrix_of x) -> (trace_cons dim t x <-> ctrace dim (matrix_of x) = RtoC t).
Proof.
  intros H. unfold trace_cons, ctrace. rewrite rsum_fsum.
  assert (E : fsum (map (fun i => matrix_of x i i) (seq 0 dim)) = RtoC (rs (map (fun i => rho_r x i i) (seq 0 dim)))).
  { rewrite (RtoC_fsum (fun i => rho_r x i i)). apply fsum_map_ext. intros i Hi. apply in_seq in Hi. specialize (H i i). rewrite (real_of_conj (matrix_of x i i)); [reflexivity|]. symmetry. apply H; lia. }
  rewrite E. split; [intros ->; reflexivity|apply RtoC_inj].
Qed.
Lemma ptr_real s k j : 0 < s -> Im (m_at (partial_trace_super s s) k j) = 0%R.
Proof.
  intros Hs. destruct (ptr_entries s s) as (_ & _ & A). rewrite A by assumption. rewrite Im_fsum. apply (fsum_map_zero' (HF:=Fld_R)). intros i _. unfold tmp.
  destruct (_ && _); destruct (_ && _); cbn; ring.
Qed.
Lemma ptr_row_sum s x r c : r < s -> c < s ->
  row_vec (s * s) (ptr_row s (r + c * s)) (rho_r x) = Re (trace_second s (matrix_of x) r c) /\ row_vec (s * s) (ptr_row s (r + c * s)) (rho_i x) = Im (trace_second s (matrix_of x) r c).
Proof.
  intros Hr Hc. rewrite <- (ptr_lemma s s (matrix_of x) r c Hr Hc), Re_fsum, Im_fsum. unfold row_vec, ptr_row. rewrite !rsum_fsum.
  split; apply rs_ext; intros k _; pose proof (ptr_real s (r + c * s) k ltac:(lia)) as E; unfold matrix_of; cbn [fmul Fld_C]; unfold Cmult, Re, Im in *; cbn [fst snd]; rewrite E; ring.
Qed.
Lemma tp_cons_iff s x : (tp_cons_r (s * s) s x /\ tp_cons_i (s * s) s x) <-> (forall r c, r < s -> c < s -> trace_second s (matrix_of x) r c = if r =? c then RtoC 1 else RtoC 0).
Proof.
  split.
  - intros [A B] r c Hr Hc. destruct (ptr_row_sum s x r c Hr Hc) as [Er Ei]. specialize (A (r + c * s) ltac:(nia)). specialize (B (r + c * s) ltac:(nia)).
    rewrite Er in A. rewrite Ei in B. rewrite Nat.div_add, Nat.mod_add in A by lia. rewrite Nat.div_small, Nat.mod_small in A by lia. cbn [Nat.add] in A.
    destruct (trace_second s (matrix_of x) r c) as [u v]. cbn in A, B. subst. rewrite Nat.eqb_sym. destruct (r =? c); reflexivity.
  - intros H. split; intros k Hk; destruct (Nat.eq_dec s 0) as [->|Hs]; try (cbn in Hk; lia); pose proof (Nat.mod_upper_bound k s Hs) as H1; assert (H2 : k / s < s) by (apply Nat.div_lt_upper_bound; lia);
    destruct (ptr_row_sum s x (k mod s) (k / s) H1 H2) as [Er Ei]; rewrite (H _ _ H1 H2) in Er, Ei; replace (k mod s + k / s * s) with k in Er, Ei by (pose proof (Nat.div_mod k s Hs); lia).
    + rewrite Er. rewrite Nat.eqb_sym. destruct (k / s =? k mod s); reflexivity.
    + rewrite Ei. destruct (k mod s =? k / s); reflexivity.
Qed.
Lemma admissible_iff dim data rows w positive trace tp x : (tp = true -> exists s, s * s = dim) ->
  (admissible (cvx_problem_of dim data rows w positive trace tp) x <-> physical dim positive trace tp (matrix_of x)).
Proof.
  intros Hs. unfold admissible, cvx_problem_of, physical. cbn [p_cons]. rewrite !Forall_app.
  assert (H0 : Forall (fun c => c x) [symmetric_cons dim; antisymmetric_cons dim] <-> hermitian dim (matrix_of x)).
  { rewrite hermitian_iff. split; [intros H; inversion H as [|? ? A H']; inversion H'; auto|intros [A B]; repeat constructor; assumption]. }
  rewrite H0. split.
  - intros (H & A & B & D). split; [exact H|]. split; [intros ->; inversion B; subst; apply psd_cons_iff; assumption|]. split; [intros t ->; inversion A; subst; apply trace_cons_iff; assumption|].
    intros -> s <-. rewrite Nat.sqrt_square in D. inversion D as [|? ? D1 D']; inversion D'; subst. apply tp_cons_iff. auto.
  - intros (H & A & B & D). split; [exact H|]. split; [destruct trace as [t|]; constructor; [apply trace_cons_iff; auto|constructor]|].
    split; [destruct positive; constructor; [apply psd_cons_iff; auto|constructor]|]. destruct tp; [|constructor]. destruct (Hs eq_refl) as (s & <-). rewrite Nat.sqrt_square.
    destruct (proj2 (tp_cons_iff s x) (D eq_refl s eq_refl)). repeat constructor; assumption.
Qed.
