(** Order of the SPAM gates, and the states that the optimisation expresses. *)
From Coq Require Import QArith Reals Lra.
From Coquelicot Require Import Coquelicot.
From Verif Require Import LinAlg Base ResultFacts PyStr CtmpSpec EntSpec LinInv TomoModel TomoFitModel TomoFitSpec TomoFitProofs TomoPsdSpec TomoPsdProofs GstModel GstInvSpec GstInvProofs GstOptModel GstOptSpec GstPauliProofs GstEncProofs GstConsProofs GstFitProofs GstCaseProofs.
Local Open Scope string_scope.
Local Open Scope list_scope.
Local Open Scope nat_scope.
Local Notation s := (sqrt (1 / 2)).

(** ** SPAM matrices *)
Lemma fold_mmul d (l : list rmat) : forall (a : rmat) v i, mapply (seq 0 d) (fold_left (mmul (seq 0 d)) l a) v i = mapply (seq 0 d) a (after d (rev l) v) i.
Proof.
  induction l as [|b l IH]; intros a v i; [reflexivity|]. cbn [fold_left rev]. rewrite IH, <- mapply_mmul. unfold after. rewrite fold_left_app. reflexivity.
Qed.
Lemma spam_lemma d mats spec f ops (G : pystr -> rmat) : dget spec f = Some ops -> ops <> [] -> (forall g, In g ops -> dget mats g = Some (G g)) ->
  exists M, spam_matrix d mats spec f = Ok M /\ forall v i, mapply (seq 0 d) M v i = after d (map G (rev ops)) v i.
Proof.
  intros E Ne H. unfold spam_matrix, dget_e at 1. rewrite E. cbn [bind]. rewrite (mapM_ok _ G) by (intros g Hg; unfold dget_e; rewrite (H g Hg); reflexivity). cbn [bind].
  destruct ops as [|a ops]; [congruence|]. cbn [map]. eexists. split; [reflexivity|]. intros v i. rewrite fold_mmul. cbn [rev]. rewrite map_app, map_rev. unfold after. rewrite fold_left_app. reflexivity.
Qed.
Definition xy : dict pystr (list pystr) := [(str "F", [str "X_Rot_90"; str "Y_Rot_90"])].
Lemma spam_case : exists M v i, spam_matrix 4 d_mats xy (str "F") = Ok M /\ i < 4 /\ mapply (seq 0 4) M v i <> after 4 (map d_G [str "X_Rot_90"; str "Y_Rot_90"]) v i.
Proof.
  eexists. exists default_vec, 1. split; [reflexivity|]. split; [lia|]. intros E.
  assert (A : mapply (seq 0 4) (mmul (seq 0 4) m_rx m_ry) default_vec 1 = (- s)%R) by (rnum; lra).
  assert (B : after 4 (map d_G [str "X_Rot_90"; str "Y_Rot_90"]) default_vec 1 = 0%R) by (rnum; lra).
  pose proof s_pos. change (mapply (seq 0 4) (mmul (seq 0 4) m_rx m_ry) default_vec 1 = after 4 (map d_G [str "X_Rot_90"; str "Y_Rot_90"]) default_vec 1) in E. rewrite A, B in E. lra.
Qed.

(** ** Expressible states *)
Lemma square_entries v0 v1 v2 v3 : psd 2 (square 2 [v0; v1; v2; v3]) -> (0 <= fst v0)%R /\ (0 <= fst v3)%R /\ snd v0 = 0%R /\ snd v3 = 0%R /\ fst v1 = fst v2 /\ (snd v1 + snd v2 = 0)%R.
Proof.
  intros P. assert (Q : forall u0 u1 : C, exists r, (0 <= r)%R /\ fadd (fadd (fmul (fmul (Cconj u0) v0) u0) (fmul (fmul (Cconj u0) v1) u1)) (fadd (fmul (fmul (Cconj u1) v2) u0) (fmul (fmul (Cconj u1) v3) u1)) = RtoC r).
  { intros u0 u1. destruct (P (fun i => if i =? 0 then u0 else u1)) as (r & Hr & E). exists r. split; [exact Hr|]. rewrite <- E. cbn [seq map]. rewrite !fsum_cons, !fsum_nil. unfold square. cbn [Nat.mul Nat.add Nat.eqb nth]. ring. }
  destruct (Q (RtoC 1) (RtoC 0)) as (r0 & R0 & E0). destruct (Q (RtoC 0) (RtoC 1)) as (r1 & R1 & E1). destruct (Q (RtoC 1) (RtoC 1)) as (r2 & R2 & E2). destruct (Q (RtoC 1) Ci) as (r3 & R3 & E3).
  destruct v0 as [a0 b0], v1 as [a1 b1], v2 as [a2 b2], v3 as [a3 b3]. cbn [fst snd].
  apply (f_equal (fun z => (fst z, snd z))) in E0, E1, E2, E3. cbn in E0, E1, E2, E3. injection E0 as E0 E0'. injection E1 as E1 E1'. injection E2 as E2 E2'. injection E3 as E3 E3'.
  repeat split; lra.
Qed.
Lemma operator_entries v : let r := operator_of v in
  r 0 0 = fmul (RtoC s) (fadd (v 0) (v 3)) /\ r 1 1 = fmul (RtoC s) (fsub (v 0) (v 3)) /\ r 0 1 = fmul (RtoC s) (fsub (v 1) (fmul Ci (v 2))) /\ r 1 0 = fmul (RtoC s) (fadd (v 1) (fmul Ci (v 2))).
Proof.
  cbv zeta. unfold operator_of, csumn. rewrite <- s2. cbn [seq map]. rewrite !fsum_cons, !fsum_nil. rewrite !pauli1 by lia. destruct (v 0), (v 1), (v 2), (v 3).
  repeat split; apply injective_projections; cnum; ring.
Qed.
Lemma states_lemma v : length v = 4 -> psd 2 (square 2 v) -> let r := operator_of (fun i => nth i v (RtoC 0)) in
  (fst (r 1%nat 1%nat) <= fst (r 0%nat 0%nat))%R /\ (hermitian 2 r -> fst (r 0 1) = (- snd (r 0%nat 1%nat))%R).
Proof.
  intros L P. destruct v as [|v0 [|v1 [|v2 [|v3 [|]]]]]; try discriminate. destruct (square_entries _ _ _ _ P) as (H0 & H3 & I0 & I3 & H1 & H2).
  destruct (operator_entries (fun i => nth i [v0; v1; v2; v3] (RtoC 0))) as (A & B & D & E). cbv zeta. pose proof s_pos as Sp. rewrite A, B, D. assert (Hh : hermitian 2 (operator_of (fun i => nth i [v0; v1; v2; v3] (RtoC 0))) -> fmul (RtoC s) (fsub v1 (fmul Ci v2)) = Cconj (fmul (RtoC s) (fadd v1 (fmul Ci v2)))) by (intros Hm; specialize (Hm 0 1 ltac:(lia) ltac:(lia)); rewrite D, E in Hm; exact Hm). clear A B D E. cbn [nth]. destruct v0 as [a0 b0], v1 as [a1 b1], v2 as [a2 b2], v3 as [a3 b3]. cbn [fst snd] in *. split.
  - cbn. nra.
  - intros Hm. apply Hh in Hm. apply (f_equal fst) in Hm. cbn in Hm |- *. subst a2. assert (b2 = - b1)%R by lra. subst b2. nra.
Qed.

(** A state meeting the constraints whose operator is not Hermitian. *)
Definition v_bad : list C := [RtoC s; (0, - s)%R; (0, s)%R; RtoC s].
Definition m_dep : rmat := fun i j => if (i =? 0) && (j =? 0) then 1%R else 0%R.
Definition ph_bad : nat -> C := phases [RtoC 1; Ci].
Definition half_id : nat -> nat -> C := fun i j => if i =? j then RtoC (1 / 2) else f0.
Definition z_bad : nat -> nat -> C := of_crows [[RtoC s; RtoC s]; [(0, s)%R; (0, - s)%R]].
Definition t_bad : nat -> nat -> C := fun i j => if (i =? 0) && (j =? 0) then RtoC (2 * s) else f0.
Definition n_schur (m : cmat) : (nat -> nat -> C) * (nat -> nat -> C) := if m_rows m =? 2 then (t_bad, z_bad) else (m_at m, c_id).
Lemma bad_outer : same_entries 2 (square 2 v_bad) (outer ph_bad s).
Proof. intros i j Hi Hj. destruct i as [|[|i]], j as [|[|j]]; try lia; apply injective_projections; cnum; ring. Qed.
Lemma choi_dep : same_entries 4 (choi_matrix 1 (m_at (cptm4 m_dep))) half_id.
Proof. apply choi_rows; intros x y Hx Hy; do 4 (destruct x as [|x]; [do 4 (destruct y as [|y]; [apply injective_projections; cnum; lra|]); lia|]); lia. Qed.
Lemma half_psd : psd 4 half_id.
Proof.
  apply (gram_psd 4 _ (1 / 2) [0; 1; 2; 3] (fun k a => if k =? a then f1 else f0)); [lra|]. intros a b Ha Hb.
  do 4 (destruct a as [|a]; [do 4 (destruct b as [|b]; [apply injective_projections; cnum; lra|]); lia|]); lia.
Qed.
Lemma bad_schur : schur_on n_schur 2 (square 2 v_bad).
Proof.
  intros m H1 H2 H. unfold n_schur. rewrite H1. cbn [Nat.eqb fst snd].
  apply (schur_ext 2 _ _ _ _ _ _ (same_trans _ _ _ _ H bad_outer) (fun i j _ _ => eq_refl) (fun i j _ _ => eq_refl)). constructor.
  - intros i j Hj Hi. destruct i; [lia|]. reflexivity.
  - intros j k Hj Hk. destruct j as [|[|j]], k as [|[|k]]; try lia; apply injective_projections; cnum; pose proof ss as SS; unfold Rdiv in SS; lra.
  - intros j k Hj Hk. assert (S3 : (2 * (s * s * s) = s)%R) by (rewrite ss; lra). destruct j as [|[|j]], k as [|[|k]]; try lia; apply injective_projections; cnum; unfold Rdiv in S3; lra.
Qed.
Lemma dep_schur : schur_on n_schur 4 (choi_matrix 1 (m_at (cptm4 m_dep))).
Proof.
  intros m H1 H2 H. unfold n_schur. rewrite H1. cbn [Nat.eqb fst snd]. pose proof (same_trans _ _ _ _ H choi_dep) as H'.
  apply (schur_ext 4 _ _ _ _ _ _ H' H' (fun i j _ _ => eq_refl)). constructor.
  - intros i j Hj Hi. unfold half_id. destruct (Nat.eqb_spec i j); [lia|reflexivity].
  - intros i j Hi Hj. do 4 (destruct i as [|i]; [do 4 (destruct j as [|j]; [apply injective_projections; cnum; lra|]); lia|]); lia.
  - intros i j Hi Hj. do 4 (destruct i as [|i]; [do 4 (destruct j as [|j]; [apply injective_projections; cnum; lra|]); lia|]); lia.
Qed.
Lemma dep_gate M : same_entries 4 M (m_at (cptm4 m_dep)) -> ptm_gate 1 M.
Proof.
  intros H. split; [|split].
  - apply trace_row. intros j Hj. change (4 ^ 1) with 4 in Hj. rewrite H by lia. cbn [cptm4 m_at]. unfold m_dep. destruct (j =? 0); reflexivity.
  - intros i j Hi Hj. unfold is_real. rewrite H by assumption. reflexivity.
  - intros i j H0 Hi Hj. rewrite H by assumption. cbn [cptm4 m_at fst RtoC]. unfold m_dep. destruct ((i =? 0) && (j =? 0)); lra.
Qed.
Lemma bad_state n terms : exists x E rho Gs, let p := mle_problem_of 1 n terms in feasible (mp_eq p) (mp_ineq p) x /\ split_input_vector 1 n x = Ok (E, rho, Gs) /\
  ~ hermitian 2 (operator_of (fun i => nth i rho (RtoC 0))) /\ ~ hermitian 2 (operator_of (fun i => nth i E (RtoC 0))).
Proof.
  assert (P : psd 2 (square 2 v_bad)) by (apply (GstCaseProofs.psd_ext _ _ _ bad_outer); apply psd_outer; apply sqrt_pos).
  assert (EX : expressible 1 v_bad v_bad (repeat (cptm4 m_dep) n)).
  { constructor; [reflexivity|reflexivity|exact P|exact P|]. apply Forall_forall. intros G HG. apply repeat_spec in HG. subst G. split; [reflexivity|]. split; [reflexivity|]. apply (GstCaseProofs.psd_ext _ _ _ choi_dep). exact half_psd. }
  destruct (encoding_lemma n_schur 1 _ _ _ EX bad_schur bad_schur) as (x & E & rho & Gs & _ & _ & S & -> & -> & HGs). { apply Forall_forall. intros G HG. apply repeat_spec in HG. subst G. exact dep_schur. }
  rewrite repeat_length in S. exists x, v_bad, v_bad, Gs. cbv zeta.
  assert (PG : Forall (fun M => ptm_gate 1 (m_at M)) Gs).
  { apply Forall_forall. intros M HM. destruct (Forall2_in_l _ _ _ M HGs HM) as (g & Hg & _ & _ & SE). apply repeat_spec in Hg. subst g. apply dep_gate. exact SE. }
  destruct (constraints_lemma 1 _ _ _ _ _ S) as ((l1 & C1 & I1) & (l2 & C2 & I2)). destruct (operator_entries (fun i => nth i v_bad (RtoC 0))) as (A & B & D & E).
  assert (NH : ~ hermitian 2 (operator_of (fun i => nth i v_bad (RtoC 0)))).
  { intros Hm. specialize (Hm 0 1 ltac:(lia) ltac:(lia)). rewrite D, E in Hm. apply (f_equal fst) in Hm. revert Hm. cnum. pose proof ss as SS. unfold Rdiv in SS. nra. }
  split; [|split; [exact S|split; exact NH]]. cbn [mle_problem_of mp_eq mp_ineq]. split; repeat constructor.
  - eexists. split; [exact (trace_constraint _ _ _ _ _ S)|].
    assert (T : csumn 2 (fun r => operator_of (fun i => nth i v_bad (RtoC 0)) r r) = RtoC 1).
    { unfold csumn. cbn [seq map]. rewrite !fsum_cons, !fsum_nil, A, B. apply injective_projections; cnum; pose proof ss as SS; unfold Rdiv in SS; lra. }
    rewrite T. constructor; [cbn; lra|]. constructor; [reflexivity|constructor].
  - exists l1. split; [exact C1|]. apply I1. apply (Forall_impl _ (fun M H => conj (proj1 H) (proj1 (proj2 H))) PG).
  - exists l2. split; [exact C2|]. apply I2. apply (Forall_impl _ (fun M H => proj2 (proj2 H)) PG).
Qed.
