(** The gauge optimisation. *)
From Coq Require Import QArith Reals Lra.
From Coquelicot Require Import Coquelicot.
From Verif Require Import LinAlg Base ResultFacts PyStr CtmpSpec EntSpec LinInv TomoModel TomoFitModel TomoFitSpec TomoPsdSpec GstModel GstInvSpec GstInvProofs GstOptModel GstOptSpec GstPauliProofs GstEncProofs GstConsProofs GstFitProofs.
Local Open Scope list_scope.
Local Open Scope nat_scope.

Lemma rsum_fsum l : rsum l = fsum (HF:=Fld_R) l. Proof. reflexivity. Qed.
Lemma norm_vec_nonneg d u v : (0 <= norm_vec d u v)%R. Proof. apply sqrt_pos. Qed.
Lemma norm_mat_nonneg d u v : (0 <= norm_mat d u v)%R. Proof. apply sqrt_pos. Qed.
Lemma squares_nonneg {A} (f : A -> R) l : Forall (fun v => (0 <= v)%R) (map (fun i => (f i * f i)%R) l).
Proof. apply Forall_map, Forall_forall. intros i _. apply Rle_0_sqr. Qed.
Lemma norm_vec_zero d u v : norm_vec d u v = 0%R -> forall i, i < d -> u i = v i.
Proof.
  intros H i Hi. unfold norm_vec in H. pose proof (squares_nonneg (fun i => u i - v i)%R (seq 0 d)) as P. apply sqrt_eq_0 in H; [|apply fsum_nonneg; exact P].
  pose proof (fsum_zero_all _ P) as Z. rewrite <- rsum_fsum, H in Z. specialize (Z (Rle_refl 0)). rewrite Forall_map, Forall_forall in Z. specialize (Z i ltac:(apply in_seq; lia)). cbn beta in Z. apply Rsqr_0_uniq in Z. lra.
Qed.
Lemma norm_mat_zero d A B : norm_mat d A B = 0%R -> forall i j, i < d -> j < d -> A i j = B i j.
Proof.
  intros H i j Hi Hj. unfold norm_mat in H.
  assert (P : Forall (fun v => (0 <= v)%R) (map (fun i => rsum (map (fun j => ((A i j - B i j) * (A i j - B i j))%R) (seq 0 d))) (seq 0 d))).
  { apply Forall_map, Forall_forall. intros a _. apply fsum_nonneg. exact (squares_nonneg (fun j => A a j - B a j)%R (seq 0 d)). }
  apply sqrt_eq_0 in H; [|apply fsum_nonneg; exact P]. pose proof (fsum_zero_all _ P) as Z. rewrite <- rsum_fsum, H in Z. specialize (Z (Rle_refl 0)). rewrite Forall_map, Forall_forall in Z. specialize (Z i ltac:(apply in_seq; lia)). cbn beta in Z.
  pose proof (fsum_zero_all _ (squares_nonneg (fun j => A i j - B i j)%R (seq 0 d))) as Y. rewrite <- rsum_fsum, Z in Y. specialize (Y (Rle_refl 0)). rewrite Forall_map, Forall_forall in Y. specialize (Y j ltac:(apply in_seq; lia)). cbn beta in Y. apply Rsqr_0_uniq in Y. lra.
Qed.
Lemma norm_vec_same d u v : (forall i, i < d -> u i = v i) -> norm_vec d u v = 0%R.
Proof. intros H. unfold norm_vec. rewrite <- sqrt_0. f_equal. refine (fsum_map_zero' (HF:=Fld_R) _ _ _). intros i Hi. apply in_seq in Hi. rewrite H by lia. change (f0 (F:=R)) with 0%R. lra. Qed.
Lemma norm_mat_same d A B : (forall i j, i < d -> j < d -> A i j = B i j) -> norm_mat d A B = 0%R.
Proof.
  intros H. unfold norm_mat. rewrite <- sqrt_0. f_equal. refine (fsum_map_zero' (HF:=Fld_R) _ _ _). intros i Hi. apply in_seq in Hi. refine (fsum_map_zero' (HF:=Fld_R) _ _ _). intros j Hj. apply in_seq in Hj. rewrite H by lia. change (f0 (F:=R)) with 0%R. lra.
Qed.

Section Undo.
Context {F : Type} {HF : Fld F}.
Add Field FldFieldGU : (fth (F:=F)).
Variables (n : nat) (K X Y : mat (F:=F) nat).
Hypothesis HX : inverse_of n X K.
Hypothesis HY : inverse_of n Y X.
(** The inverse of the inverse. *)
Lemma inverse_twice i j : i < n -> j < n -> Y i j = K i j.
Proof.
  intros Hi Hj. transitivity (mmul (seq 0 n) Y (mmul (seq 0 n) X K) i j).
  - unfold mmul at 1. rewrite <- (pick_nat n j (fun k => Y i k)) by exact Hj. apply fsum_map_ext. intros k Hk. apply in_seq in Hk. rewrite (proj1 (HX k j ltac:(lia) Hj)). rewrite Nat.eqb_sym. destruct (k =? j); ring.
  - rewrite mmul_assoc. unfold mmul at 1. rewrite <- (pick_nat n i (fun k => K k j)) by exact Hi. apply fsum_map_ext. intros k Hk. apply in_seq in Hk. rewrite (proj1 (HY i k Hi ltac:(lia))). destruct (i =? k); ring.
Qed.
Lemma undo_rho r i : i < n -> mapply (seq 0 n) Y (mapply (seq 0 n) X r) i = r i.
Proof. intros Hi. rewrite mapply_mmul. apply (mapply_id n (mmul (seq 0 n) Y X) r i); [|exact Hi]. intros a b Ha Hb. apply HY; assumption. Qed.
Lemma mmul_at (A A' B B' : mat (F:=F) nat) i j : (forall k, k < n -> A i k = A' i k) -> (forall k, k < n -> B k j = B' k j) -> mmul (seq 0 n) A B i j = mmul (seq 0 n) A' B' i j.
Proof. intros H1 H2. unfold mmul. apply fsum_map_ext. intros k Hk. apply in_seq in Hk. rewrite H1, H2 by lia. reflexivity. Qed.
Lemma mmul_id_l (A B : mat (F:=F) nat) i j : is_id n A -> i < n -> mmul (seq 0 n) A B i j = B i j.
Proof. intros H Hi. exact (mapply_id n A (fun k => B k j) i H Hi). Qed.
Lemma mmul_id_r (A B : mat (F:=F) nat) i j : is_id n B -> j < n -> mmul (seq 0 n) A B i j = A i j.
Proof. intros H Hj. unfold mmul. rewrite <- (pick_nat n j (fun k => A i k)) by exact Hj. apply fsum_map_ext. intros k Hk. apply in_seq in Hk. rewrite H by lia. rewrite Nat.eqb_sym. destruct (j =? k); ring. Qed.
Lemma undo_gate G M i j : conj_by n K X G M -> i < n -> j < n -> mmul (seq 0 n) (mmul (seq 0 n) Y M) X i j = G i j.
Proof.
  intros HM Hi Hj. assert (E : forall a b, a < n -> b < n -> mmul (seq 0 n) Y M a b = mmul (seq 0 n) G K a b).
  { intros a b Ha Hb. rewrite (mmul_at Y Y M (mmul (seq 0 n) (mmul (seq 0 n) X G) K) a b) by (intros; try reflexivity; apply HM; assumption).
    rewrite !mmul_assoc. apply mmul_at; [|reflexivity]. intros k Hk. rewrite mmul_assoc. apply mmul_id_l; [|exact Ha]. intros c d Hc Hd. apply HY; assumption. }
  rewrite (mmul_at _ (mmul (seq 0 n) G K) X X i j) by (intros; try reflexivity; apply E; assumption). rewrite <- mmul_assoc. apply mmul_id_r; [|exact Hj]. intros c d Hc Hd. apply HX; assumption.
Qed.
Lemma undo_E (E E' : nat -> F) j : (forall j, j < n -> E' j = fsum (map (fun i => fmul (E i) (K i j)) (seq 0 n))) -> j < n -> fsum (map (fun i => fmul (E' i) (X i j)) (seq 0 n)) = E j.
Proof.
  intros H Hj. transitivity (mmul (seq 0 n) (mmul (seq 0 n) (fun _ k => E k) K) X 0 j).
  - apply fsum_map_ext. intros k Hk. apply in_seq in Hk. rewrite H by lia. reflexivity.
  - rewrite <- mmul_assoc. apply (mmul_id_r (fun _ k => E k)); [|exact Hj]. intros c d Hc Hd. apply HX; assumption.
Qed.
End Undo.

Lemma gauge_obj_nonneg np_inv d gates ideal li x v : gauge_obj np_inv d gates ideal li x = Ok v -> (0 <= v)%R.
Proof.
  unfold gauge_obj. destruct (x_to_gateset np_inv d (ge_gates li) (ge_E li) (ge_rho li) x) as [g|]; [|discriminate]. intros Fv. apply bind_inv in Fv. destruct Fv as (l & El & Fv). injection Fv as <-.
  assert (P : Forall (fun w => (0 <= w)%R) l).
  { apply mapM_inv in El. apply Forall_forall. intros w Hw. destruct (Forall2_in_r _ _ _ w El Hw) as (a & _ & Ha). apply bind_inv in Ha. destruct Ha as (m1 & _ & Ha). apply bind_inv in Ha. destruct Ha as (m2 & _ & Ha). injection Ha as <-. apply norm_mat_nonneg. }
  pose proof (fsum_nonneg l P) as Pl. rewrite <- rsum_fsum in Pl. pose proof (norm_vec_nonneg d (ge_E g) (ge_E ideal)) as P1. pose proof (norm_vec_nonneg d (ge_rho g) (ge_rho ideal)) as P2. lra.
Qed.

Section Exact.
Variable np_inv : nat -> rmat -> option rmat.
Variable gauge_minimize : (rmat -> result R) -> rmat -> rmat.
Variables (gates spam : list pystr) (mats : dict pystr rmat) (spec : dict pystr (list pystr)) (ops : pystr -> list pystr) (probs : pyval -> option R).
Variables (G0 S0 : pystr -> rmat).
Hypothesis N4 : length spam = 4.
Hypothesis ND : NoDup gates.
Hypothesis Hs : spam_of gates spam spec ops.
Hypothesis Hne : forall f, In f spam -> ops f <> [].
Hypothesis Hmats : forall g, In g gates -> dget mats g = Some (G0 g).
Hypothesis Hex : exact_gst 4 spam gates default_vec default_vec G0 S0 probs.
Hypothesis Hinv : forall M, (forall i j, i < 4 -> j < 4 -> M i j = gram_matrix 4 spam default_vec default_vec S0 i j) -> exists X, np_inv 4 M = Some X /\ inverse_of 4 X M.
Let K : rmat := fun i j => after 4 [S0 (nth j spam [])] default_vec i.
Hypothesis HinvX : forall X, inverse_of 4 X K -> exists Y, np_inv 4 X = Some Y /\ inverse_of 4 Y X.

Lemma dget_conj (X B : rmat) (gs : dict pystr rmat) g m : dget gs g = Some m -> dget (map (fun kv => (fst kv, mmul (seq 0 4) (mmul (seq 0 4) X (snd kv)) B)) gs) g = Some (mmul (seq 0 4) (mmul (seq 0 4) X m) B).
Proof. induction gs as [|[k m'] gs IH]; cbn; [discriminate|]. destruct (eqb g k); [congruence|exact IH]. Qed.

(** The inverse of the matrix of the prepared states is a gauge with value zero. *)
Lemma zero_gauge : exists li ideal, linear_inversion np_inv spam gates probs = Ok li /\ ideal_gateset gates mats 4 = Ok ideal /\ ge_rho ideal = default_vec /\ ge_E ideal = default_vec /\
  (forall g, In g gates -> dget (ge_gates ideal) g = Some (G0 g)) /\ (forall g, In g gates -> exists m, dget (ge_gates li) g = Some m) /\
  (exists X, inverse_of 4 X K) /\ forall X, inverse_of 4 X K -> gauge_obj np_inv 4 gates ideal li X = Ok 0%R.
Proof.
  assert (Hex' : exact_gst (length spam) spam gates default_vec default_vec G0 S0 probs) by (rewrite N4; exact Hex).
  destruct (inversion_explicit np_inv spam gates default_vec default_vec G0 S0 probs Hex') as (li & X' & Eli & HX & Hg & HE & Hr); [rewrite N4; exact Hinv|].
  assert (HK : forall i j, colB spam default_vec S0 i j = K i j) by (intros i j; unfold colB, K; rewrite N4; reflexivity). rewrite N4 in HX, Hg, HE, Hr.
  destruct (ideal_ok gates mats ND) as (ideal & Eid & Ir & IE & IG). { intros g Hgg. exists (G0 g). apply Hmats, Hgg. }
  assert (HXK' : inverse_of 4 X' K). { intros i j Hi Hj. destruct (HX i j Hi Hj) as [A B]. rewrite <- A at 1. rewrite <- B. split; apply mmul_at; auto. }
  assert (HE' : forall j, j < 4 -> ge_E li j = fsum (map (fun i => fmul (default_vec i) (K i j)) (seq 0 4))). { intros j Hj. rewrite HE by exact Hj. apply fsum_map_ext. intros i _. rewrite HK. reflexivity. }
  exists li, ideal. split; [exact Eli|]. split; [exact Eid|]. split; [exact Ir|]. split; [exact IE|]. split; [|split].
  - intros g Hgg. destruct (IG g Hgg) as (m & A & B). rewrite Hmats in B by exact Hgg. congruence.
  - intros g Hgg. destruct (Hg g Hgg) as (m & A & _). eauto.
  - split; [exists X'; exact HXK'|]. intros X HXK. destruct (HinvX X HXK) as (Y & EY & HY).
    assert (XX : forall i j, i < 4 -> j < 4 -> X' i j = X i j). { apply (inverse_twice 4 X K X'); [|exact HXK']. intros i j Hi Hj. destruct (HXK i j Hi Hj). split; assumption. }
    assert (Hg' : forall g, In g gates -> exists M, dget (ge_gates li) g = Some M /\ conj_by 4 K X (G0 g) M).
    { intros g Hgg. destruct (Hg g Hgg) as (M & A & B). exists M. split; [exact A|]. intros i j Hi Hj. rewrite (B i j Hi Hj). apply mmul_at; [|auto]. intros k Hk. apply mmul_at; auto. }
    unfold gauge_obj, x_to_gateset. rewrite EY. cbn [ge_gates ge_E ge_rho]. rewrite (mapM_ok _ (fun _ => 0%R)).
    + cbn [bind]. f_equal. rewrite IE, Ir. rewrite (norm_vec_same 4 _ default_vec), (norm_vec_same 4 _ default_vec).
      * assert (Z : rsum (map (fun _ : pystr => 0%R) gates) = 0%R) by (refine (fsum_map_zero' (HF:=Fld_R) _ _ _); intros; reflexivity). rewrite Z. lra.
      * intros i Hi. transitivity (mapply (seq 0 4) Y (mapply (seq 0 4) X default_vec) i); [apply mapply_idx; auto; intros k Hk; rewrite Hr by exact Hk; apply mapply_idx; auto|]. apply (undo_rho 4 X Y HY). exact Hi.
      * intros j Hj. exact (undo_E 4 K X HXK default_vec (ge_E li) j HE' Hj).
    + intros g Hgg. destruct (Hg' g Hgg) as (m & A & Hm). unfold dget_e. rewrite (dget_conj Y X _ _ _ A). cbn [bind]. destruct (IG g Hgg) as (m' & A' & B'). rewrite A'. cbn [bind]. rewrite Hmats in B' by exact Hgg. injection B' as <-. f_equal. apply norm_mat_same. intros i j Hi Hj.
      exact (undo_gate 4 K X Y HXK HY (G0 g) m i j Hm Hi Hj).
Qed.
Hypothesis Hstart : forall Fs, mapM (spam_matrix 4 mats spec) spam = Ok Fs -> np_inv 4 (gauge_start 4 Fs default_vec) <> None.
Hypothesis Hmin : forall li ideal x0, linear_inversion np_inv spam gates probs = Ok li -> ideal_gateset gates mats 4 = Ok ideal -> minimiser (gauge_obj np_inv 4 gates ideal li) (gauge_minimize (gauge_obj np_inv 4 gates ideal li) x0).
Lemma gauge_recovers : exists li ideal g, linear_inversion np_inv spam gates probs = Ok li /\ ideal_gateset gates mats 4 = Ok ideal /\
  gauge_optimize np_inv gauge_minimize 4 gates spam mats spec ideal li = Ok (Some g) /\
  (forall l, In l gates -> exists m, dget (ge_gates g) l = Some m /\ forall i j, i < 4 -> j < 4 -> m i j = G0 l i j) /\
  forall i, i < 4 -> ge_E g i = default_vec i /\ ge_rho g i = default_vec i.
Proof.
  destruct zero_gauge as (li & ideal & Eli & Eid & Ir & IE & IG & Lg & (X & HX) & Z0). assert (Z := Z0 X HX). clear Z0. exists li, ideal.
  pose proof (fun x0 => Hmin li ideal x0 Eli Eid) as Mi. set (f := gauge_obj np_inv 4 gates ideal li) in *.
  unfold gauge_optimize. destruct (spam_ok gates spam mats spec ops N4 Hs Hne) as (Fs & EF & LF). { intros g Hg. exists (G0 g). apply Hmats, Hg. }
  rewrite EF. cbn [bind]. rewrite LF. cbn [Nat.eqb negb]. rewrite Ir. set (x0 := gauge_start 4 Fs default_vec).
  assert (F0 : exists v, f x0 = Ok v).
  { unfold f, gauge_obj, x_to_gateset. destruct (np_inv 4 x0) as [Y|] eqn:EX; [|destruct (Hstart Fs EF EX)]. cbn [ge_gates].
    match goal with |- exists v, bind ?m _ = _ => assert (M : exists l, m = Ok l) end.
    { match goal with |- exists l, mapM ?h ?l0 = _ => destruct (mapM_total h (fun _ _ => True) l0) as (l & El & _) end; [|eauto].
      intros g Hg. destruct (Lg g Hg) as (m & Em). unfold dget_e. rewrite (dget_conj Y x0 _ _ _ Em). cbn [bind]. rewrite (IG g Hg). cbn [bind]. eauto. }
    destruct M as (l & ->). cbn [bind]. eauto. }
  destruct F0 as (v0 & F0). assert (F0' : gauge_obj np_inv 4 gates ideal li x0 = Ok v0) by exact F0. rewrite F0'. cbn [bind].
  destruct (Mi x0) as (v & Fv & Best). specialize (Best X 0%R Z). change (gauge_minimize (gauge_obj np_inv 4 gates ideal li) x0) with (gauge_minimize f x0). set (x := gauge_minimize f x0) in *.
  unfold f, gauge_obj in Fv. destruct (x_to_gateset np_inv 4 (ge_gates li) (ge_E li) (ge_rho li) x) as [g|] eqn:EG; [|discriminate].
  exists g. split; [exact Eli|]. split; [exact Eid|]. split; [reflexivity|]. apply bind_inv in Fv. destruct Fv as (l & El & Fv). injection Fv as Fv.
  assert (P : Forall (fun w => (0 <= w)%R) l).
  { apply mapM_inv in El. apply Forall_forall. intros w Hw. destruct (Forall2_in_r _ _ _ w El Hw) as (a & _ & Ha). apply bind_inv in Ha. destruct Ha as (m1 & _ & Ha). apply bind_inv in Ha. destruct Ha as (m2 & _ & Ha). injection Ha as <-. apply norm_mat_nonneg. }
  pose proof (fsum_nonneg l P) as Pl. rewrite <- rsum_fsum in Pl. pose proof (norm_vec_nonneg 4 (ge_E g) (ge_E ideal)) as P1. pose proof (norm_vec_nonneg 4 (ge_rho g) (ge_rho ideal)) as P2.
  assert (Z0 : (rsum l <= 0)%R) by lra. pose proof (fsum_zero_all l P Z0) as Zl.
  split.
  - intros a Ha. apply mapM_inv in El. destruct (Forall2_in_l _ _ _ a El Ha) as (w & Hw & Ew). apply bind_inv in Ew. destruct Ew as (m1 & E1 & Ew). apply bind_inv in Ew. destruct Ew as (m2 & E2 & Ew). injection Ew as Ew.
    rewrite Forall_forall in Zl. rewrite (Zl w Hw) in Ew. exists m1. split; [unfold dget_e in E1; destruct (dget (ge_gates g) a); congruence|].
    assert (m2 = G0 a) as -> by (unfold dget_e in E2; rewrite (IG a Ha) in E2; congruence). apply norm_mat_zero. exact Ew.
  - intros i Hi. split; [transitivity (ge_E ideal i); [|rewrite IE; reflexivity]|transitivity (ge_rho ideal i); [|rewrite Ir; reflexivity]]; apply (norm_vec_zero 4); try exact Hi; lra.
Qed.
End Exact.
