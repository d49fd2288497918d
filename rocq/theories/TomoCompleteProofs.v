(** The Pauli and SIC designs determine states and processes (C62). *)
From Coq Require Import QArith Reals Lra.
From Coquelicot Require Import Coquelicot.
From Verif Require Import LinAlg Base ResultFacts CountsModel QSem DihedralModel RBSeqModel RBSeqSpec CtmpSpec StdGates AccSpec AccProbProofs EntSpec.
From Verif Require Import TomoModel TomoSpec TomoFitModel TomoFitSpec TomoCircProofs TomoLayerProofs TomoTensorProofs TomoBasisProofs TomoBornProofs TomoDataProofs.
Local Open Scope list_scope.
Local Open Scope nat_scope.
Add Field FldFieldCD : (fth (F:=C)).

Lemma fsum2 (f : bool -> C) : fsum (map f [false; true]) = fadd (f false) (f true).
Proof. cbn [map]. rewrite !fsum_cons, fsum_nil. ring. Qed.
Lemma fsum_cube_S n (f : bits -> C) : fsum (map f (cube (S n))) = fsum (map (fun b => fsum (map (fun z => f (b :: z)) (cube n))) [false; true]).
Proof. rewrite fsum2. cbn [cube]. rewrite map_app, fsum_app, !map_map. reflexivity. Qed.
Lemma tensor_complete_all {A} (I : list A) M : site_complete I M -> forall n (D : bits -> bits -> C),
  (forall idx, length idx = n -> Forall (fun a => In a I) idx -> fsum (map (fun z => fsum (map (fun z' => fmul (Cconj (tensor (map M idx) z z')) (D z z')) (cube n))) (cube n)) = f0) ->
  forall z z', length z = n -> length z' = n -> D z z' = f0.
Proof.
  intros HS. induction n as [|n IH]; intros D H z z' Hz Hz'.
  - destruct z, z'; try discriminate. specialize (H [] eq_refl (Forall_nil _)). cbn [cube map tensor] in H. rewrite !fsum_cons, fsum_nil, cj_1 in H.
    transitivity (fadd (fadd (fmul f1 (D [] [])) f0) f0); [ring|exact H].
  - destruct z as [|x z], z' as [|y z']; try discriminate. apply (IH (fun z z' => D (x :: z) (y :: z'))); [|cbn in *; lia..].
    intros idx Hl Hin.
    apply (HS (fun x y => fsum (map (fun z => fsum (map (fun z' => fmul (Cconj (tensor (map M idx) z z')) (D (x :: z) (y :: z'))) (cube n))) (cube n)))).
    intros a Ha. rewrite <- (H (a :: idx)); [|cbn; lia|constructor; assumption]. rewrite fsum_cube_S. apply fsum_map_ext. intros x' _.
    change (map M (a :: idx)) with (M a :: map M idx).
    transitivity (fsum (map (fun z0 => fsum (map (fun y' => fsum (map (fun z'0 => fmul (Cconj (fmul (M a x' y') (tensor (map M idx) z0 z'0))) (D (x' :: z0) (y' :: z'0))) (cube n))) [false; true])) (cube n))).
    + etransitivity; [|apply fsum_swap]. apply fsum_map_ext. intros y' _. rewrite <- fsum_map_mul. apply fsum_map_ext. intros z0 _. rewrite <- fsum_map_mul. apply fsum_map_ext. intros z'0 _. rewrite cj_mul. ring.
    + apply fsum_map_ext. intros z0 _. rewrite fsum_cube_S. reflexivity.
Qed.

(** * The sites *)
Ltac ctriv := change (@f0 C _) with (RtoC 0) in *; change (@fadd C _) with Cplus in *; change (@fmul C _) with Cmult in *.
Lemma pair_eq (z w : C) : z = w -> fst z = fst w /\ snd z = snd w. Proof. intros ->; auto. Qed.
Ltac comps H := let A := fresh in let B := fresh in apply pair_eq in H; destruct H as [A B]; cbn in A, B.

Definition pauli_sites : list (pystr * bool) := list_prod [str "X"; str "Y"; str "Z"] [false; true].
Lemma pauli_meas_complete : site_complete pauli_sites (fun lo => at2 (pauli_measurement_matrix (fst lo) (snd lo))).
Proof.
  intros D H.
  assert (X0 := H (str "X", false) ltac:(cbn; auto 10)). assert (Y0 := H (str "Y", false) ltac:(cbn; auto 10)).
  assert (Z0 := H (str "Z", false) ltac:(cbn; auto 10)). assert (Z1 := H (str "Z", true) ltac:(cbn; auto 10)). clear H.
  rewrite !fsum2 in *. cbn [fst snd] in *. rewrite pm_X in X0. rewrite pm_Y in Y0. rewrite pm_Z in Z0, Z1. unfold at2, hf in *. cbn in *.
  comps X0. comps Y0. comps Z0. comps Z1. intros x y. apply injective_projections; destruct x, y; cbn; lra.
Qed.
Lemma pauli_prep_complete : site_complete [str "Zp"; str "Zm"; str "Xp"; str "Yp"] (fun l => at2 (pauli_preparation_matrix l)).
Proof.
  intros D H.
  assert (X0 := H (str "Xp") ltac:(cbn; auto 10)). assert (Y0 := H (str "Yp") ltac:(cbn; auto 10)).
  assert (Z0 := H (str "Zp") ltac:(cbn; auto 10)). assert (Z1 := H (str "Zm") ltac:(cbn; auto 10)). clear H.
  rewrite !fsum2 in *. rewrite pp_Xp in X0. rewrite pp_Yp in Y0. rewrite pp_Zp in Z0. rewrite pp_Zm in Z1. unfold at2, hf in *. cbn in *.
  comps X0. comps Y0. comps Z0. comps Z1. intros x y. apply injective_projections; destruct x, y; cbn; lra.
Qed.
Lemma sic_prep_complete : site_complete [str "S0"; str "S1"; str "S2"; str "S3"] (fun l => at2 (sicpovm_preparation_matrix l)).
Proof.
  intros D H.
  assert (S0 := H (str "S0") ltac:(cbn; auto 10)). assert (S1 := H (str "S1") ltac:(cbn; auto 10)).
  assert (S2 := H (str "S2") ltac:(cbn; auto 10)). assert (S3 := H (str "S3") ltac:(cbn; auto 10)). clear H.
  rewrite !fsum2 in *. rewrite sp_S0 in S0. rewrite sp_S1 in S1. rewrite sp_S2 in S2. rewrite sp_S3 in S3. unfold at2, thd, np_expi in *. cbn [m_at mat22 Nat.b2n] in *.
  assert (M : (- PI * 2 / 3 = - (PI * 2 / 3))%R) by field. rewrite M, cos_neg, sin_neg, cos_2pi3, sin_2pi3 in *.
  assert (Hs : (0 < sqrt 2)%R) by (apply sqrt_lt_R0; lra). assert (Hh : (0 < sqrt 3)%R) by (apply sqrt_lt_R0; lra).
  set (s := sqrt 2) in *. set (h := sqrt 3) in *. clearbody s h.
  comps S0. comps S1. comps S2. comps S3.
  destruct (D false false) as [a00 b00] eqn:E00. destruct (D false true) as [a01 b01] eqn:E01. destruct (D true false) as [a10 b10] eqn:E10. destruct (D true true) as [a11 b11] eqn:E11. cbn in *.
  assert (K : forall t u : R, (0 < t)%R -> (t * u = 0)%R -> u = 0%R) by (intros t u Ht Hu; destruct (Rmult_integral _ _ Hu); lra).
  assert (a00 = 0%R) by lra. assert (b00 = 0%R) by lra.
  assert (a11 = 0%R) by (subst; lra). assert (b11 = 0%R) by (subst; lra).
  assert (P1 : (a01 + a10 = 0)%R) by (apply (K s); [assumption|subst; lra]). assert (P2 : (b01 + b10 = 0)%R) by (apply (K s); [assumption|subst; lra]).
  assert (P3 : (b01 - b10 = 0)%R) by (apply (K h); [assumption|]; apply (K s); [assumption|subst; lra]). assert (P4 : (a01 - a10 = 0)%R) by (apply (K h); [assumption|]; apply (K s); [assumption|subst; lra]).
  intros x y. change (@f0 C _) with (RtoC 0).
  destruct x, y; apply injective_projections; cbn; rewrite ?E00, ?E01, ?E10, ?E11; cbn; lra.
Qed.

(** * From rows to matrices *)
Fixpoint num (z : bits) : nat := match z with [] => 0 | b :: z' => Nat.b2n b + 2 * num z' end.
Lemma num_lebits n : forall k, k < 2 ^ n -> num (lebits n k) = k.
Proof.
  induction n as [|n IH]; intros k Hk; [cbn in *; lia|]. cbn [lebits num]. rewrite IH by (rewrite Nat.pow_succ_r' in Hk; apply Nat.div_lt_upper_bound; lia).
  rewrite b2n_odd'. pose proof (Nat.div_mod k 2). lia.
Qed.
Lemma lebits_num z : lebits (length z) (num z) = z.
Proof.
  induction z as [|b z IH]; [reflexivity|]. cbn [length lebits num]. f_equal.
  - rewrite Nat.odd_add, Nat.odd_mul. destruct b; reflexivity.
  - rewrite (Nat.mul_comm 2), Nat.div_add by lia. destruct b; exact IH.
Qed.
Lemma num_lt z : num z < 2 ^ length z.
Proof. induction z as [|b z IH]; [cbn; lia|]. cbn [num length]. rewrite Nat.pow_succ_r'. destruct b; cbn [Nat.b2n]; lia. Qed.

Section Rows.
Variables (n : nat) (d : meas_data) (ls : list pystr).
Hypothesis HS : site_complete (list_prod ls [false; true]) (fun lo => at2 (md_matrix d (fst lo) (snd lo))).

Lemma choices idx : length idx = n -> Forall (fun a => In a (list_prod ls [false; true])) idx ->
  exists m os, choice n ls m /\ length os = n /\ idx = combine m os.
Proof.
  revert idx. clear. induction n as [|k IH]; intros [|[l o] idx] Hl H; try discriminate; [exists [], []; repeat split; constructor|].
  inversion H as [|? ? Ha Hr]; subst. destruct (IH idx) as (m & os & [Hm Hin] & Ho & ->); [cbn in Hl; lia|assumption|]. apply in_prod_iff in Ha.
  exists (l :: m), (o :: os). repeat split; cbn; try lia. constructor; [apply Ha|assumption].
Qed.

(** The rows for all the labels vanish on no matrix but zero. *)
Lemma state_rows_complete D :
  (forall m o, choice n ls m -> o < 2 ^ n -> exists op, is_tensor op (map (fun lo => at2 (md_matrix d (fst lo) (snd lo))) (combine m (lebits n o))) /\ dot (vec_conj (kron (transp eye1) op)) (vec (2 ^ n) D) = f0) ->
  forall i j, i < 2 ^ n -> j < 2 ^ n -> D i j = f0.
Proof.
  intros H i j Hi Hj. rewrite <- (num_lebits n i Hi), <- (num_lebits n j Hj).
  apply (tensor_complete_all _ _ HS n (fun z z' => D (num z) (num z'))); try apply length_lebits.
  intros idx Hl Hin. destruct (choices idx Hl Hin) as (m & os & Hm & Ho & ->).
  specialize (H m (num os) Hm ltac:(rewrite <- Ho; apply num_lt)). destruct H as (op & Ht & H).
  rewrite <- Ho in Ht. rewrite lebits_num in Ht. destruct Ht as (Tr & Tc & Ta). rewrite map_length in Tr, Tc, Ta. rewrite Hl in Tr, Tc, Ta.
  rewrite dot_vec in H by (cbn [kron transp eye1 m_rows m_cols]; lia). rewrite <- H.
  set (Ms := map (fun lo => at2 (md_matrix d (fst lo) (snd lo))) (combine m os)) in *.
  rewrite <- (fsum_lebits n (fun z => fsum (map (fun z' => fmul (Cconj (tensor Ms z z')) (D (num z) (num z'))) (cube n)))).
  rewrite (fsum_map_ext _ (fun k => fsum (map (fun l => fmul (Cconj (tensor Ms (lebits n k) (lebits n l))) (D (num (lebits n k)) (num (lebits n l)))) (seq 0 (2 ^ n))))).
  2:{ intros k _. symmetry. apply (fsum_lebits n (fun z' => fmul (Cconj (tensor Ms (lebits n k) z')) (D (num (lebits n k)) (num z')))). }
  rewrite fsum_swap. apply fsum_map_ext. intros l Hl'. apply fsum_map_ext. intros k Hk. apply in_seq in Hl', Hk. rewrite !num_lebits by lia.
  cbn [kron transp eye1 m_rows m_cols m_at]. rewrite Tr, Tc, !Nat.mod_small by lia. rewrite Ta by lia. do 2 f_equal.
  change (tensor Ms (lebits n k) (lebits n l) = fmul f1 (tensor Ms (lebits n k) (lebits n l))). ring.
Qed.

Variables (pd : prep_data) (ps : list pystr).
Hypothesis HP : site_complete ps (fun l => at2 (pd_matrix pd l)).
Lemma process_rows_complete D :
  (forall p m o, choice n ps p -> choice n ls m -> o < 2 ^ n -> exists P op, is_tensor P (map (fun l => at2 (pd_matrix pd l)) p) /\ is_tensor op (map (fun lo => at2 (md_matrix d (fst lo) (snd lo))) (combine m (lebits n o))) /\
     dot (vec_conj (kron (transp P) op)) (vec (2 ^ n * 2 ^ n) D) = f0) ->
  forall i j, i < 2 ^ n * 2 ^ n -> j < 2 ^ n * 2 ^ n -> D i j = f0.
Proof.
  intros H i j Hi Hj. assert (Hp : 2 ^ n <> 0) by (apply Nat.pow_nonzero; lia).
  set (g := fun a b z z' => D (num a * 2 ^ n + num z) (num b * 2 ^ n + num z')).
  assert (E : D i j = g (lebits n (i / 2 ^ n)) (lebits n (j / 2 ^ n)) (lebits n (i mod 2 ^ n)) (lebits n (j mod 2 ^ n))).
  { unfold g. rewrite !num_lebits by (try apply Nat.mod_upper_bound; try apply Nat.div_lt_upper_bound; lia). pose proof (Nat.div_mod i (2 ^ n) Hp). pose proof (Nat.div_mod j (2 ^ n) Hp). f_equal; lia. }
  rewrite E. generalize (length_lebits n (i / 2 ^ n)) (length_lebits n (j / 2 ^ n)) (length_lebits n (i mod 2 ^ n)) (length_lebits n (j mod 2 ^ n)).
  generalize (lebits n (i / 2 ^ n)) (lebits n (j / 2 ^ n)) (lebits n (i mod 2 ^ n)) (lebits n (j mod 2 ^ n)). clear E i j Hi Hj.
  intros a b z z' La Lb Lz Lz'.
  apply (tensor_complete_all _ _ HS n (fun z z' => g a b z z')); try assumption.
  intros idx Hl Hin. destruct (choices idx Hl Hin) as (m & os & Hm & Ho & ->).
  set (Ms := map (fun lo => at2 (md_matrix d (fst lo) (snd lo))) (combine m os)) in *.
  apply (tensor_complete_all _ _ HP n (fun b a => fsum (map (fun z0 => fsum (map (fun z'0 => fmul (Cconj (tensor Ms z0 z'0)) (g a b z0 z'0)) (cube n))) (cube n)))); try assumption.
  intros p Hlp Hpin. assert (Hcp : choice n ps p) by (split; assumption). specialize (H p m (num os) Hcp Hm ltac:(rewrite <- Ho; apply num_lt)). destruct H as (P & op & TP & Ht & H).
  rewrite <- Ho in Ht. rewrite lebits_num in Ht. destruct Ht as (Tr & Tc & Ta). fold Ms in Ta. rewrite map_length in Tr, Tc. replace (length Ms) with n in Ta by (unfold Ms; rewrite map_length; congruence). rewrite Hl in Tr, Tc.
  destruct TP as (Pr & Pc & Pa). set (Ps := map (fun l => at2 (pd_matrix pd l)) p) in *. replace (length Ps) with n in Pa, Pr, Pc by (unfold Ps; rewrite map_length; congruence).
  rewrite dot_vec in H by (cbn [kron transp m_rows m_cols]; rewrite ?Pr, ?Pc, ?Tr, ?Tc; reflexivity). rewrite <- H. clear H.
  set (h := fun a b z z' => fmul (fmul (Cconj (tensor Ps b a)) (Cconj (tensor Ms z z'))) (g a b z z')).
  transitivity (fsum (map (fun b0 => fsum (map (fun a0 => fsum (map (fun z0 => fsum (map (fun z'0 => h a0 b0 z0 z'0) (cube n))) (cube n))) (cube n))) (cube n))).
  { apply fsum_map_ext. intros b0 _. apply fsum_map_ext. intros a0 _. rewrite <- fsum_map_mul. apply fsum_map_ext. intros z0 _. rewrite <- fsum_map_mul. apply fsum_map_ext. intros z'0 _. unfold h. ring. }
  symmetry.
  transitivity (fsum (map (fun l => fsum (map (fun k => (fun kr ki => h (lebits n ki) (lebits n (l / 2 ^ n)) (lebits n kr) (lebits n (l mod 2 ^ n))) (k mod 2 ^ n) (k / 2 ^ n)) (seq 0 (2 ^ n * 2 ^ n)))) (seq 0 (2 ^ n * 2 ^ n)))).
  - apply fsum_map_ext. intros l Hl'. apply fsum_map_ext. intros k Hk. apply in_seq in Hk, Hl'. cbn [kron transp m_rows m_cols m_at]. rewrite Tr, Tc.
    rewrite Ta by (apply Nat.mod_upper_bound; assumption). rewrite Pa by (apply Nat.div_lt_upper_bound; lia). unfold h, g.
    rewrite !num_lebits by (try apply Nat.mod_upper_bound; try apply Nat.div_lt_upper_bound; lia).
    replace (k / 2 ^ n * 2 ^ n + k mod 2 ^ n) with k by (pose proof (Nat.div_mod k (2 ^ n) Hp); lia). replace (l / 2 ^ n * 2 ^ n + l mod 2 ^ n) with l by (pose proof (Nat.div_mod l (2 ^ n) Hp); lia).
    change (Cmult ?a (tensor Ms ?b ?c)) with (fmul a (tensor Ms b c)). rewrite cj_mul. reflexivity.
  - transitivity (fsum (map (fun l => (fun lr li => fsum (map (fun a => fsum (map (fun z => h a (lebits n li) z (lebits n lr)) (cube n))) (cube n))) (l mod 2 ^ n) (l / 2 ^ n)) (seq 0 (2 ^ n * 2 ^ n)))).
    + apply fsum_map_ext. intros l _. rewrite (fsum_divmod (fun kr ki => h (lebits n ki) (lebits n (l / 2 ^ n)) (lebits n kr) (lebits n (l mod 2 ^ n)))).
      rewrite <- (fsum_lebits n (fun a => fsum (map (fun z => h a (lebits n (l / 2 ^ n)) z (lebits n (l mod 2 ^ n))) (cube n)))). apply fsum_map_ext. intros i _.
      rewrite <- (fsum_lebits n (fun z => h (lebits n i) (lebits n (l / 2 ^ n)) z (lebits n (l mod 2 ^ n)))). reflexivity.
    + rewrite (fsum_divmod (fun lr li => fsum (map (fun a => fsum (map (fun z => h a (lebits n li) z (lebits n lr)) (cube n))) (cube n)))).
      transitivity (fsum (map (fun b => fsum (map (fun z' => fsum (map (fun a => fsum (map (fun z => h a b z z') (cube n))) (cube n))) (cube n))) (cube n))).
      * rewrite <- (fsum_lebits n (fun b => fsum (map (fun z' => fsum (map (fun a => fsum (map (fun z => h a b z z') (cube n))) (cube n))) (cube n)))). apply fsum_map_ext. intros j _.
        rewrite <- (fsum_lebits n (fun z' => fsum (map (fun a => fsum (map (fun z => h a (lebits n j) z z') (cube n))) (cube n)))). reflexivity.
      * apply fsum_map_ext. intros b0 _. rewrite fsum_swap. apply fsum_map_ext. intros a0 _. apply fsum_swap.
Qed.
End Rows.
