(** The Pauli and SIC bases (C45). *)
From Coq Require Import QArith Qreals Reals Lra.
From Coquelicot Require Import Coquelicot.
From Verif Require Import LinAlg Base QSem DihedralModel RBSeqModel RBSeqSpec CtmpSpec StdGates AccSpec EntSpec EntMqcProofs TomoModel TomoSpec TomoFitSpec TomoLayerProofs.
Local Open Scope list_scope.
Local Open Scope nat_scope.

Lemma s2_sq : (/ sqrt 2 * / sqrt 2 = 1 / 2)%R.
Proof. replace (/ sqrt 2 * / sqrt 2)%R with (/ (sqrt 2 * sqrt 2))%R by (field; apply Rgt_not_eq, sqrt_lt_R0; lra). rewrite sqrt_sqrt by lra. field. Qed.

Definition hf : C := RtoC (1 / 2).
Lemma pm_X o : pauli_measurement_matrix (str "X") o = if o then mat22 hf (Copp hf) (Copp hf) hf else mat22 hf hf hf hf. Proof. destruct o; reflexivity. Qed.
Lemma pm_Y o : pauli_measurement_matrix (str "Y") o = if o then mat22 hf (Cmult hf Ci) (Copp (Cmult hf Ci)) hf else mat22 hf (Copp (Cmult hf Ci)) (Cmult hf Ci) hf. Proof. destruct o; reflexivity. Qed.
Lemma pm_Z o : pauli_measurement_matrix (str "Z") o = if o then mat22 (RtoC 0) (RtoC 0) (RtoC 0) (RtoC 1) else mat22 (RtoC 1) (RtoC 0) (RtoC 0) (RtoC 0). Proof. destruct o; reflexivity. Qed.
Lemma pp_Xp : pauli_preparation_matrix (str "Xp") = mat22 hf hf hf hf. Proof. reflexivity. Qed.
Lemma pp_Xm : pauli_preparation_matrix (str "Xm") = mat22 hf (Copp hf) (Copp hf) hf. Proof. reflexivity. Qed.
Lemma pp_Yp : pauli_preparation_matrix (str "Yp") = mat22 hf (Copp (Cmult hf Ci)) (Cmult hf Ci) hf. Proof. reflexivity. Qed.
Lemma pp_Ym : pauli_preparation_matrix (str "Ym") = mat22 hf (Cmult hf Ci) (Copp (Cmult hf Ci)) hf. Proof. reflexivity. Qed.
Lemma pp_Zp : pauli_preparation_matrix (str "Zp") = mat22 (RtoC 1) (RtoC 0) (RtoC 0) (RtoC 0). Proof. reflexivity. Qed.
Lemma pp_Zm : pauli_preparation_matrix (str "Zm") = mat22 (RtoC 0) (RtoC 0) (RtoC 0) (RtoC 1). Proof. reflexivity. Qed.
Definition thd (x : C) : C := Cdiv x (RtoC 3).
Lemma sp_S0 : sicpovm_preparation_matrix (str "S0") = mat22 (RtoC 1) (RtoC 0) (RtoC 0) (RtoC 0). Proof. reflexivity. Qed.
Lemma sp_S1 : sicpovm_preparation_matrix (str "S1") = mat22 (thd (RtoC 1)) (thd (RtoC (sqrt 2))) (thd (RtoC (sqrt 2))) (thd (RtoC 2)). Proof. reflexivity. Qed.
Lemma sp_S2 : sicpovm_preparation_matrix (str "S2") = mat22 (thd (RtoC 1)) (thd (Cmult (np_expi (PI * 2 / 3)%R) (RtoC (sqrt 2)))) (thd (Cmult (np_expi (- PI * 2 / 3)%R) (RtoC (sqrt 2)))) (thd (RtoC 2)). Proof. reflexivity. Qed.
Lemma sp_S3 : sicpovm_preparation_matrix (str "S3") = mat22 (thd (RtoC 1)) (thd (Cmult (np_expi (- PI * 2 / 3)%R) (RtoC (sqrt 2)))) (thd (Cmult (np_expi (PI * 2 / 3)%R) (RtoC (sqrt 2)))) (thd (RtoC 2)). Proof. reflexivity. Qed.

Section Basis.
Variable gmat : pystr -> list Q -> bits -> bits -> C.
Hypothesis HG : tomo_gates gmat.
Notation H := (tg_std _ HG).

(** The matrix of a list of gates on one qubit. *)
Definition vmat (gs : list (string * list Q)) : bool -> bool -> C :=
  fold_left (fun V g => mul2 (fun a b => gmat (str (fst g)) (snd g) [a] [b]) V) gs one2.
Lemma vmat_acts q gs : acts (map (op_of gmat) (map (fun g => {| gname := str (fst g); gparams := snd g; gqubits := [q] |}) gs)) q (vmat gs).
Proof.
  unfold vmat. induction gs as [|g gs IH] using rev_ind; [apply acts_nil|].
  rewrite !map_app, fold_left_app. cbn [map fold_left]. apply acts_app; [assumption|]. apply acts_gate.
Qed.
Ltac circ q l := exists (map (fun g : string * list Q => {| gname := str (fst g); gparams := snd g; gqubits := [q] |}) l); split; [reflexivity|split; [repeat constructor|apply vmat_acts]].

Ltac ceq := let E := fresh in pose proof s2_sq as E; unfold at2; cbn; rewrite ?(sg_h _ _ _ H), ?(sg_s _ _ _ H), ?(sg_sdg _ _ _ H), ?(sg_x _ _ _ H); cbn;
  generalize dependent (/ sqrt 2)%R; intros r E; apply injective_projections; cbn; lra.
Ltac sq := repeat match goal with o : bool |- _ => destruct o end; ceq.

Lemma pauli_meas_sound d : tb_meas PauliBasis = Some d -> sound_meas gmat d.
Proof.
  intros E. injection E as <-. intros l Hl. cbn in Hl. destruct Hl as [<-|[<-|[<-|[]]]].
  - change ["X"%char] with (str "X"). cbn [md_matrix md_circuit]. setoid_rewrite pm_X. exists (vmat [("h"%string, [])]). split; [intros q c; circ q [("h"%string, @nil Q)]|]. split; [intros a b; sq|]. intros o. split; [destruct o; reflexivity|]. split; [destruct o; reflexivity|]. intros a b. sq.
  - change ["Y"%char] with (str "Y"). cbn [md_matrix md_circuit]. setoid_rewrite pm_Y. exists (vmat [("sdg"%string, []); ("h"%string, [])]). split; [intros q c; circ q [("sdg"%string, @nil Q); ("h"%string, @nil Q)]|]. split; [intros a b; sq|]. intros o. split; [destruct o; reflexivity|]. split; [destruct o; reflexivity|]. intros a b. sq.
  - change ["Z"%char] with (str "Z"). cbn [md_matrix md_circuit]. setoid_rewrite pm_Z. exists (vmat []). split; [intros q c; circ q (@nil (string * list Q))|]. split; [intros a b; sq|]. intros o. split; [destruct o; reflexivity|]. split; [destruct o; reflexivity|]. intros a b. sq.
Qed.
Ltac prep E l := cbn [pd_matrix pd_circuit]; rewrite E; exists (vmat l); split; [let q := fresh in intros q; circ q l|]; split; [unfold at2, thd, hf; cbn; apply injective_projections; cbn; lra|]; split; [reflexivity|]; split; [reflexivity|]; intros a b.
Lemma pauli_prep_sound d : tb_prep PauliBasis = Some d -> sound_prep gmat d.
Proof.
  intros E. injection E as <-. intros l Hl. cbn in Hl. destruct Hl as [<-|[<-|[<-|[<-|[<-|[<-|[]]]]]]].
  - change ["X"%char; "p"%char] with (str "Xp"). prep pp_Xp [("h"%string, @nil Q)]. sq.
  - change ["X"%char; "m"%char] with (str "Xm"). prep pp_Xm [("x"%string, @nil Q); ("h"%string, @nil Q)]. sq.
  - change ["Y"%char; "p"%char] with (str "Yp"). prep pp_Yp [("h"%string, @nil Q); ("s"%string, @nil Q)]. sq.
  - change ["Y"%char; "m"%char] with (str "Ym"). prep pp_Ym [("x"%string, @nil Q); ("h"%string, @nil Q); ("s"%string, @nil Q)]. sq.
  - change ["Z"%char; "p"%char] with (str "Zp"). prep pp_Zp (@nil (string * list Q)). sq.
  - change ["Z"%char; "m"%char] with (str "Zm"). prep pp_Zm [("x"%string, @nil Q)]. sq.
Qed.

Lemma sic_half : (sic_theta / 2 = - atan (sqrt 2))%R.
Proof. unfold sic_theta. field. Qed.
Lemma sic_cos : (cos (sic_theta / 2) = / sqrt 3)%R.
Proof. rewrite sic_half, cos_neg, cos_atan. unfold Rsqr. rewrite sqrt_sqrt by lra. replace (1 + 2)%R with 3%R by lra. field. apply Rgt_not_eq, sqrt_lt_R0; lra. Qed.
Lemma sic_sin : (sin (sic_theta / 2) = - (sqrt 2 * / sqrt 3))%R.
Proof. rewrite sic_half, sin_neg, sin_atan. unfold Rsqr. rewrite sqrt_sqrt by lra. replace (1 + 2)%R with 3%R by lra. reflexivity. Qed.
Lemma s3_sq : (/ sqrt 3 * / sqrt 3 = 1 / 3)%R.
Proof. replace (/ sqrt 3 * / sqrt 3)%R with (/ (sqrt 3 * sqrt 3))%R by (field; apply Rgt_not_eq, sqrt_lt_R0; lra). rewrite sqrt_sqrt by lra. field. Qed.

Lemma sic_matrix k (co si : R) : (cos (Q2R k * (PI / 3)) = - co)%R -> (sin (Q2R k * (PI / 3)) = - si)%R -> (co * co + si * si = 1)%R ->
  forall a b, Cmult (gmat (str "u3") [1%Q; k; 0%Q] [a] [false]) (Cconj (gmat (str "u3") [1%Q; k; 0%Q] [b] [false])) =
    match a, b with
    | false, false => (1/3, 0)%R
    | false, true => ((sqrt 2 * co) / 3, - (sqrt 2 * si) / 3)%R
    | true, false => ((sqrt 2 * co) / 3, (sqrt 2 * si) / 3)%R
    | true, true => (2/3, 0)%R
    end.
Proof.
  intros Hc Hs H1 a b. rewrite !(tg_u3 _ HG). unfold u3_entry, expi. pose proof s3_sq as E3. assert (E2 : (sqrt 2 * sqrt 2 = 2)%R) by (apply sqrt_sqrt; lra).
  destruct a, b; rewrite ?sic_cos, ?sic_sin, ?Hc, ?Hs; set (r := (/ sqrt 3)%R) in *; set (s := sqrt 2) in *; clearbody r s;
    unfold Cmult, Cconj, RtoC; cbn [fst snd]; f_equal.
  - replace 2%R with (s * s)%R by assumption. replace (s * s / 3)%R with ((s * s) * (r * r) * (co * co + si * si))%R by (rewrite H1, E3; field). ring.
  - ring.
  - replace (s * co / 3)%R with (s * co * (r * r))%R by (rewrite E3; field). ring.
  - replace (s * si / 3)%R with (s * si * (r * r))%R by (rewrite E3; field). ring.
  - replace (s * co / 3)%R with (s * co * (r * r))%R by (rewrite E3; field). ring.
  - replace (- (s * si) / 3)%R with (- (s * si) * (r * r))%R by (rewrite E3; field). ring.
  - rewrite <- E3. ring.
  - ring.
Qed.
Lemma cos_2pi3 : (cos (PI * 2 / 3) = - (1/2))%R.
Proof. replace (PI * 2 / 3)%R with (2 * (PI / 3))%R by field. rewrite cos_2PI3. lra. Qed.
Lemma sin_2pi3 : (sin (PI * 2 / 3) = sqrt 3 / 2)%R.
Proof. replace (PI * 2 / 3)%R with (2 * (PI / 3))%R by field. apply sin_2PI3. Qed.

Lemma sic_prep_sound d : tb_prep SICBasis = Some d -> sound_prep gmat d.
Proof.
  assert (E3 : (sqrt 3 * sqrt 3 = 3)%R) by (apply sqrt_sqrt; lra).
  assert (K1 : forall k a b, vmat [("u3"%string, [1%Q; k; 0%Q])] a b = gmat (str "u3") [1%Q; k; 0%Q] [a] [b]).
  { intros k a b. unfold vmat. cbn [fold_left fst snd]. unfold mul2, one2. destruct b; cbn; ring. }
  assert (E1 : (Q2R 3 * (PI / 3) = PI)%R) by (unfold Q2R; cbn; field).
  assert (E2 : (Q2R 1 * (PI / 3) = PI / 3)%R) by (unfold Q2R; cbn; field).
  assert (E4 : (Q2R (-1) * (PI / 3) = - (PI / 3))%R) by (unfold Q2R; cbn; field).
  assert (M : (- PI * 2 / 3 = - (PI * 2 / 3))%R) by field.
  intros E. injection E as <-. intros l Hl. cbn in Hl. destruct Hl as [<-|[<-|[<-|[<-|[]]]]].
  - change ["S"%char; "0"%char] with (str "S0"). prep sp_S0 (@nil (string * list Q)). sq.
  - change ["S"%char; "1"%char] with (str "S1"). prep sp_S1 [("u3"%string, [1%Q; 3%Q; 0%Q])]. rewrite !K1. rewrite (sic_matrix 3 1 0); [|rewrite E1, cos_PI; lra|rewrite E1, sin_PI; lra|lra].
    unfold at2. destruct a, b; cbn; apply injective_projections; cbn; field.
  - change ["S"%char; "2"%char] with (str "S2"). prep sp_S2 [("u3"%string, [1%Q; 1%Q; 0%Q])]. rewrite !K1. rewrite (sic_matrix 1 (-(1/2)) (- (sqrt 3 / 2))); [|rewrite E2, cos_PI3; lra|rewrite E2, sin_PI3; lra|nra].
    unfold at2. destruct a, b; cbn; unfold np_expi; rewrite ?M, ?cos_neg, ?sin_neg, ?cos_2pi3, ?sin_2pi3; apply injective_projections; cbn; field.
  - change ["S"%char; "3"%char] with (str "S3"). prep sp_S3 [("u3"%string, [1%Q; (-1)%Q; 0%Q])]. rewrite !K1. rewrite (sic_matrix (-1) (-(1/2)) (sqrt 3 / 2)); [|rewrite E4, cos_neg, cos_PI3; lra|rewrite E4, sin_neg, sin_PI3; lra|nra].
    unfold at2. destruct a, b; cbn; unfold np_expi; rewrite ?M, ?cos_neg, ?sin_neg, ?cos_2pi3, ?sin_2pi3; apply injective_projections; cbn; field.
Qed.
End Basis.

(** Gates over the complex numbers that meet the conditions. *)
Definition tgate (name : pystr) (ps : list Q) (o i : bits) : C :=
  match ps, o, i with
  | [_; k; _], [a], [b] => u3_entry sic_theta (Q2R k * (PI / 3)) a b
  | _, _, _ => cgate name ps o i
  end.
Lemma tgate_ok : tomo_gates tgate.
Proof. split; [|reflexivity]. pose proof cgate_std as [A B c d e f g h i]. constructor; auto. Qed.
