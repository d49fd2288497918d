(** Properties C44 (gate-set circuits) and C49: gate-set tomography,
    qiskit/ignis/verification/tomography. *)
From Coq Require Import QArith Qcanon Reals Lra.
From Coquelicot Require Import Coquelicot.
From Verif Require Import LinAlg Base ResultFacts PyStr DihedralModel RBSeqModel CtmpSpec TomoModel TomoSpec TomoFitModel LinInv GstModel GstSpec GstCircProofs GstInvSpec GstInvProofs.
Local Open Scope string_scope.
Local Open Scope list_scope.
Local Open Scope nat_scope.

(** * C44: the circuits of gate-set tomography *)

(** For a gate set whose labels name gates: one circuit for every gate between two
    SPAM circuits, for every two SPAM circuits and for every SPAM circuit, no other;
    the names differ and evaluating a name gives the labels. *)
Theorem C44_gst_circuits : forall b q, sound_gateset b ->
  let g := length (gs_gate_labels b) in let s := length (gs_spam_labels b) in
  exists cs, gateset_tomography_circuits (Some [q]) (Some b) = Ok cs /\ length cs = g * (s * s) + s * s + s /\ NoDup (map t_name cs) /\
  (forall l, gst_label_of b l -> exists k, In k cs /\ literal_eval (t_name k) = Ok (gst_tuple l) /\ gst_circuit_for b q l k) /\
  (forall k, In k cs -> exists l, gst_label_of b l /\ literal_eval (t_name k) = Ok (gst_tuple l) /\ gst_circuit_for b q l k).
Proof. exact gst_circuits_lemma. Qed.
Print Assumptions C44_gst_circuits.

(** The default gate set is one: 3 gates, 4 SPAM circuits, 68 circuits. *)
Example C44_gst_case : sound_gateset default_gateset_basis /\ gs_spam_labels default_gateset_basis = [str "F0"; str "F1"; str "F2"; str "F3"] /\
  exists cs, gateset_tomography_circuits None None = Ok cs /\ length cs = 68.
Proof.
  split; [|split; [reflexivity|eexists; split; [vm_compute; reflexivity|reflexivity]]].
  constructor; cbn.
  - repeat constructor; eexists; reflexivity.
  - repeat constructor; eexists; (split; [reflexivity|repeat constructor; eexists; reflexivity]).
  - repeat constructor; cbn; intuition discriminate.
  - repeat constructor; cbn; intuition discriminate.
  - repeat constructor; intros H; discriminate H.
  - repeat constructor; intros H; discriminate H.
Qed.
(** A gate added under a label in use: two circuits of one name. *)
Theorem C44_gst_add_gate_refuted : exists b cs, gs_add_gate default_gateset_basis (fun q => [g1 "x" [] q]) (Some (str "x")) (Some (str "Id")) = Ok b /\
  gateset_tomography_circuits None (Some b) = Ok cs /\ ~ NoDup (map t_name cs).
Proof.
  do 2 eexists. split; [vm_compute; reflexivity|]. split; [vm_compute; reflexivity|]. intros H. rewrite (NoDup_nth _ []) in H.
  specialize (H 0 48). vm_compute in H. assert (E : 0 = 48) by (apply H; [repeat constructor|repeat constructor|reflexivity]). discriminate E.
Qed.
Print Assumptions C44_gst_add_gate_refuted.

(** * C49: linear inversion *)

(** Exact data of gates [G], SPAM circuits [S], state [rho] and effect [E] whose matrix
    of pair probabilities [np_inv] can invert: the estimate is the gate set conjugated
    by one invertible matrix. *)
Theorem C49_inversion : forall {F} {HF : Fld F} (np_inv : nat -> mat (F:=F) nat -> option (mat (F:=F) nat)) spam gates (E rho : nat -> F) G S probs,
  let n := length spam in
  exact_gst n spam gates E rho G S probs ->
  (forall M, (forall i j, i < n -> j < n -> M i j = gram_matrix n spam E rho S i j) -> exists X, np_inv n M = Some X /\ inverse_of n X M) ->
  exists est B X, linear_inversion np_inv spam gates probs = Ok est /\ inverse_of n X B /\
  (forall g, In g gates -> exists M, dget (ge_gates est) g = Some M /\ forall i j, i < n -> j < n -> M i j = mmul (seq 0 n) (mmul (seq 0 n) X (G g)) B i j) /\
  (forall j, j < n -> ge_E est j = fsum (map (fun i => fmul (E i) (B i j)) (seq 0 n))) /\
  (forall i, i < n -> ge_rho est i = mapply (seq 0 n) X rho i).
Proof. intros F HF. exact inversion_lemma. Qed.
Print Assumptions C49_inversion.

(** Hence the estimate has the spectra of the gates, and predicts the probability of
    every sequence of gates. *)
Theorem C49_exact : forall {F} {HF : Fld F} (np_inv : nat -> mat (F:=F) nat -> option (mat (F:=F) nat)) spam gates (E rho : nat -> F) G S probs,
  let n := length spam in
  exact_gst n spam gates E rho G S probs ->
  (forall M, (forall i j, i < n -> j < n -> M i j = gram_matrix n spam E rho S i j) -> exists X, np_inv n M = Some X /\ inverse_of n X M) ->
  exists est, linear_inversion np_inv spam gates probs = Ok est /\
  (forall g, In g gates -> exists M, dget (ge_gates est) g = Some M /\ forall l, (exists x, eigenvector n M l x) <-> exists x, eigenvector n (G g) l x) /\
  forall gs Ms, Forall2 (fun g M => In g gates /\ dget (ge_gates est) g = Some M) gs Ms -> seq_prob n (ge_E est) (ge_rho est) Ms = seq_prob n E rho (map G gs).
Proof.
  intros F HF np_inv spam gates E rho G S probs n H1 H2. destruct (inversion_lemma np_inv spam gates E rho G S probs H1 H2) as (est & B & X & A1 & A2 & A3 & A4 & A5).
  exists est. split; [exact A1|]. split.
  - intros g Hg. destruct (A3 g Hg) as (M & HM & HC). exists M. split; [exact HM|]. intros l. exact (spectrum n B X A2 (G g) M l HC).
  - intros gs Ms H. exact (prediction_lemma spam gates E rho G est B X gs Ms A2 A3 A4 A5 H).
Qed.
Print Assumptions C49_exact.

(** A change of gauge keeps the labels, the spectra and the predictions. *)
Theorem C49_gauge : forall {F} {HF : Fld F} (np_inv : nat -> mat (F:=F) nat -> option (mat (F:=F) nat)) d (gs : dict pystr (mat (F:=F) nat)) (E rho : nat -> F) B est,
  (forall X, np_inv d B = Some X -> inverse_of d X B) -> x_to_gateset np_inv d gs E rho B = Some est ->
  dkeys (ge_gates est) = dkeys gs /\
  (forall g M, dget gs g = Some M -> exists M', dget (ge_gates est) g = Some M' /\ forall l, (exists x, eigenvector d M' l x) <-> exists x, eigenvector d M l x) /\
  forall names Ms Ms', Forall2 (fun g M => dget gs g = Some M) names Ms -> Forall2 (fun g M => dget (ge_gates est) g = Some M) names Ms' ->
    seq_prob d (ge_E est) (ge_rho est) Ms' = seq_prob d E rho Ms.
Proof. intros F HF. exact gauge_lemma. Qed.
Print Assumptions C49_gauge.

(** The objective of the maximum-likelihood fit is the sum of squared differences
    between predictions and data, at every point. *)
Theorem C49_objective : forall {F} {HF : Fld F} d Gs names Fs ops probs (data : pystr -> pystr -> pystr -> F),
  spam_of Gs names Fs ops ->
  (forall fj g fi, In fj names -> In g Gs -> In fi names -> probs (VTup [VStr fj; VStr g; VStr fi]) = Some (data fj g fi)) ->
  exists terms, obj_terms Gs names Fs probs = Ok terms /\
  forall E rho G, obj_fn d terms E rho (map G Gs) = squared_error d Gs names ops data E rho G.
Proof. intros F HF. exact objective_lemma. Qed.
Print Assumptions C49_objective.

(** It is zero at the gates that gave the data, which over the reals is its minimum. *)
Theorem C49_objective_minimum : forall d Gs names Fs ops probs (data : pystr -> pystr -> pystr -> R),
  spam_of Gs names Fs ops ->
  (forall fj g fi, In fj names -> In g Gs -> In fi names -> probs (VTup [VStr fj; VStr g; VStr fi]) = Some (data fj g fi)) ->
  exists terms, obj_terms (F:=R) Gs names Fs probs = Ok terms /\
  (forall E rho G, (0 <= obj_fn (HF:=Fld_R) d terms E rho (map G Gs))%R) /\
  forall E rho G, (forall fj g fi, In fj names -> In g Gs -> In fi names -> data fj g fi = seq_prob (HF:=Fld_R) d E rho (map G (ops fj ++ [g] ++ ops fi))) ->
    obj_fn (HF:=Fld_R) d terms E rho (map G Gs) = 0%R.
Proof.
  intros d Gs names Fs ops probs data H1 H2. destruct (objective_lemma (HF:=Fld_R) d Gs names Fs ops probs data H1 H2) as (terms & A & B). exists terms. split; [exact A|].
  assert (P : forall l : list R, (forall x, In x l -> (0 <= x)%R) -> (0 <= fsum (HF:=Fld_R) l)%R).
  { induction l as [|a l IH]; intros H; [apply Rle_refl|]. rewrite fsum_cons. specialize (IH (fun x Hx => H x (or_intror Hx))). specialize (H a (or_introl eq_refl)). unfold fadd; cbn; lra. }
  assert (Z : forall l : list R, (forall x, In x l -> x = 0%R) -> fsum (HF:=Fld_R) l = 0%R).
  { induction l as [|a l IH]; intros H; [reflexivity|]. rewrite fsum_cons, (IH (fun x Hx => H x (or_intror Hx))), (H a (or_introl eq_refl)). cbn. lra. }
  assert (I : forall E rho G x, In x (flat_map (fun fi => flat_map (fun fj => map (fun g => let y := fsub (seq_prob (HF:=Fld_R) d E rho (map G (ops fj ++ [g] ++ ops fi))) (data fj g fi) in fmul y y) Gs) names) names) ->
    exists fi fj g, In fi names /\ In fj names /\ In g Gs /\ x = let y := (seq_prob (HF:=Fld_R) d E rho (map G (ops fj ++ [g] ++ ops fi)) - data fj g fi)%R in (y * y)%R).
  { intros E rho G x Hx. apply in_flat_map in Hx. destruct Hx as (fi & Hi & Hx). apply in_flat_map in Hx. destruct Hx as (fj & Hj & Hx). apply in_map_iff in Hx. destruct Hx as (g & <- & Hg).
    exists fi, fj, g. repeat (split; [assumption|]). reflexivity. }
  split.
  - intros E rho G. rewrite B. apply P. intros x Hx. destruct (I E rho G x Hx) as (fi & fj & g & _ & _ & _ & ->). cbv zeta; apply Rle_0_sqr.
  - intros E rho G H. rewrite B. apply Z. intros x Hx. destruct (I E rho G x Hx) as (fi & fj & g & Hi & Hj & Hg & ->). rewrite (H fj g fi Hj Hg Hi). cbv zeta. match goal with |- ((?a - ?b) * _)%R = _ => replace (a - b)%R with 0%R by (symmetry; apply Rminus_diag_eq; reflexivity) end. apply Rmult_0_l.
Qed.
Print Assumptions C49_objective_minimum.

(** A bit, the gates "do nothing" and "flip", which are also the SPAM circuits. *)
Definition v49 (i : nat) : Qc := match i with 0 => 1%Qc | _ => 0%Qc end.
Definition g49 (name : pystr) : mat (F:=Qc) nat := if eqb name (str "X") || eqb name (str "F1") then fun i j => if i =? j then 0%Qc else 1%Qc else fun i j => if i =? j then 1%Qc else 0%Qc.
Definition p49 (t : pyval) : option Qc :=
  match t with VTup l => Some (seq_prob 2 v49 v49 (map (fun v => match v with VStr s => g49 s | _ => g49 [] end) l)) | _ => None end.
Example C49_case : let spam := [str "F0"; str "F1"] in let gates := [str "Id"; str "X"] in let np_inv := fun (_ : nat) (_ : mat (F:=Qc) nat) => Some (g49 (str "Id")) in
  exact_gst 2 spam gates v49 v49 g49 g49 p49 /\
  (forall M, (forall i j, i < 2 -> j < 2 -> M i j = gram_matrix 2 spam v49 v49 g49 i j) -> exists X, np_inv 2 M = Some X /\ inverse_of 2 X M) /\
  exists est M, linear_inversion np_inv spam gates p49 = Ok est /\ dget (ge_gates est) (str "X") = Some M /\ M 0 1 = 1%Qc /\ M 0 0 = 0%Qc.
Proof.
  intros spam gates np_inv. split; [split; [|split]|split].
  - reflexivity.
  - reflexivity.
  - reflexivity.
  - intros M H. exists (g49 (str "Id")). split; [reflexivity|].
    assert (E : M 0 0 = 1%Qc /\ M 0 1 = 0%Qc /\ M 1 0 = 0%Qc /\ M 1 1 = 1%Qc) by (rewrite !H by lia; vm_compute; auto). destruct E as (E0 & E1 & E2 & E3).
    intros i j Hi Hj. unfold mmul. cbn [seq map]. rewrite !fsum_cons, !fsum_nil. destruct i as [|[|i]], j as [|[|j]]; try lia; rewrite ?E0, ?E1, ?E2, ?E3; vm_compute; split; reflexivity.
  - do 2 eexists. split; [reflexivity|]. split; [reflexivity|]. vm_compute. split; reflexivity.
Qed.
(** The default gate set's SPAM circuits. *)
Example C49_objective_case : spam_of [str "Id"; str "X_Rot_90"; str "Y_Rot_90"] [str "F0"; str "F1"; str "F2"; str "F3"] (gs_spam default_gateset_basis)
  (fun f => match dget (gs_spam default_gateset_basis) f with Some l => l | None => [] end).
Proof. split; [reflexivity|]. intros f H. repeat (destruct H as [<-|H]; [split; [reflexivity|intros x Hx; vm_compute in Hx |- *; tauto]|]). destruct H. Qed.
