(** What the circuits of a basis do to one qubit of any state (C45), and circuits
    of unitary gates keep norms. *)
From Coq Require Import QArith Reals Lra.
From Coquelicot Require Import Coquelicot.
From Verif Require Import LinAlg Base ResultFacts CountsModel QSem DihedralModel RBSeqModel RBSeqSpec CtmpSpec StdGates AccSpec AccProbProofs EntSpec.
From Verif Require Import TomoModel TomoSpec TomoFitModel TomoFitSpec TomoCircProofs TomoLayerProofs TomoTensorProofs TomoBasisProofs TomoBornProofs.
Local Open Scope list_scope.
Local Open Scope nat_scope.
Add Field FldFieldCS : (fth (F:=C)).

Lemma fsum_cube1 (f : bits -> C) : fsum (map f (cube 1)) = fadd (f [false]) (f [true]).
Proof. cbn [cube map app]. rewrite !fsum_cons, fsum_nil. ring. Qed.
Lemma set1_nth_id q x : set1 x q (nth q x false) = x.
Proof. revert q. induction x as [|b x IH]; intros [|q]; cbn; f_equal; auto. Qed.
Lemma nth_set1_eq x q b : q < length x -> nth q (set1 x q b) false = b.
Proof. intros Hq. rewrite nth_set1, Nat.eqb_refl. destruct (Nat.ltb_spec q (length x)); [reflexivity|lia]. Qed.
Lemma set1_set1 x q a b : set1 (set1 x q a) q b = set1 x q b.
Proof. revert q. induction x as [|c x IH]; intros [|q]; cbn; f_equal; auto. Qed.
Lemma rd1 q x : rd [q] x = [nth q x false]. Proof. reflexivity. Qed.
Lemma wr1 q b x : wr [q] [b] x = set1 x q b. Proof. reflexivity. Qed.

Section Site.
Variable gmat : pystr -> list Q -> bits -> bits -> C.

Lemma acts_cube N q ops V (psi : amp C) : q < N -> acts ops q V -> forall x, length x = N ->
  run ops psi x = fsum (map (fun z => fmul (V (hd false (rd [q] x)) (hd false z)) (psi (wr [q] z x))) (cube (length [q]))).
Proof.
  intros Hq HV x Hx. cbn [length]. rewrite fsum_cube1. rewrite (HV psi x) by lia. reflexivity.
Qed.

(** Outcome [o] of a measurement circuit has the weight Tr(M_o rho). *)
Lemma site_meas d : sound_meas gmat d -> forall l, In l (md_labels d) -> forall N q c (psi : amp C) o, q < N ->
  filter is_measure (md_circuit d l q c) = [CMeasure q c] /\
  RtoC (fsum (HF:=Fld_R) (map (fun x => if Bool.eqb (nth q x false) o then sqmod (run (map (op_of gmat) (gates (md_circuit d l q c))) psi x) else 0%R) (cube N))) =
  trace2 (at2 (md_matrix d l o)) (fun a b => reduced Cconj N [q] psi psi [a] [b]).
Proof.
  intros Hd l Hl N q c psi o Hq. destruct (Hd l Hl) as (V & Hc & _ & Ho). destruct (Hc q c) as (gs & Eg & _ & HV). destruct (Ho o) as (_ & _ & HM).
  rewrite Eg. split; [rewrite filter_app, filter_cgate; reflexivity|].
  rewrite gates_app, gates_cgate. cbn [gates flat_map]. rewrite app_nil_r.
  rewrite RtoC_fsum.
  rewrite (fsum_map_ext _ (fun x => if eqb (rd [q] x) [o] then fmul (run (map (op_of gmat) gs) psi x) (Cconj (run (map (op_of gmat) gs) psi x)) else f0)).
  2:{ intros x _. rewrite rd1. assert (E : eqb [nth q x false] [o] = Bool.eqb (nth q x false) o) by (destruct (nth q x false), o; reflexivity). rewrite E.
      destruct (Bool.eqb (nth q x false) o); [apply sq_cj|reflexivity]. }
  rewrite (born_gen Cconj cj_add cj_mul cj_0 N [q] (fun a z => V (hd false a) (hd false z)) psi (run (map (op_of gmat) gs) psi)); [|repeat constructor; auto|repeat constructor; auto| |reflexivity].
  2:{ intros x Hx. apply (acts_cube N); assumption. }
  cbn [length hd]. unfold trace2. rewrite !fsum_cube1. cbn [map hd]. rewrite !fsum_cons, !fsum_nil. rewrite !HM.
  change Cmult with (@fmul C _). ring.
Qed.

(** A preparation circuit puts its qubit, found in |0>, into the stated state. *)
Lemma site_prep d : sound_prep gmat d -> forall l, In l (pd_labels d) -> forall N q (psi : amp C) a b, q < N ->
  (forall x, length x = N -> nth q x false = true -> psi x = f0) ->
  filter is_measure (pd_circuit d l q) = [] /\
  reduced Cconj N [q] (run (map (op_of gmat) (gates (pd_circuit d l q))) psi) (run (map (op_of gmat) (gates (pd_circuit d l q))) psi) [a] [b] =
  fmul (at2 (pd_matrix d l) a b) (RtoC (norm2 N psi)).
Proof.
  intros Hd l Hl N q psi a b Hq Hz. destruct (Hd l Hl) as (V & Hc & _ & _ & _ & HM). destruct (Hc q) as (gs & Eg & _ & HV). rewrite Eg. split; [apply filter_cgate|].
  rewrite gates_cgate, HM. set (phi := run (map (op_of gmat) gs) psi).
  assert (Hphi : forall x, length x = N -> phi x = fmul (V (nth q x false) false) (psi (set1 x q false))).
  { intros x Hx. unfold phi. rewrite (HV psi x) by lia. rewrite (Hz (set1 x q true)); [ring|now rewrite length_set1|apply nth_set1_eq; lia]. }
  unfold reduced.
  transitivity (fsum (map (fun x => if eqb (rd [q] x) [a] then fmul (fmul (V a false) (Cconj (V b false))) (fmul (psi (set1 x q false)) (Cconj (psi (set1 x q false)))) else f0) (cube N))).
  { apply fsum_map_ext. intros x Hx. apply in_cube in Hx. destruct (eqb_spec (rd [q] x) [a]) as [E|E]; [|reflexivity]. rewrite rd1 in E. injection E as E.
    rewrite wr1, !Hphi by (rewrite ?length_set1; assumption). rewrite E, nth_set1_eq by lia. rewrite set1_set1, cj_mul. ring. }
  change (Cmult (V a false) (Cconj (V b false))) with (fmul (V a false) (Cconj (V b false))). set (k := fmul (V a false) (Cconj (V b false))).
  rewrite norm2_C, <- fsum_map_mul.
  (* the sum over the class of [a] and over the class of |0> *)
  rewrite <- (fsum_classes N [q] (fun x => fmul k (fmul (psi x) (Cconj (psi x))))). cbn [length]. rewrite fsum_cube1.
  assert (Z1 : fsum (map (fun x => if eqb (rd [q] x) [true] then fmul k (fmul (psi x) (Cconj (psi x))) else f0) (cube N)) = f0).
  { apply fsum_map_zero'. intros x Hx. apply in_cube in Hx. destruct (eqb_spec (rd [q] x) [true]) as [E|E]; [|reflexivity]. rewrite rd1 in E. injection E as E. rewrite Hz by assumption. ring. }
  rewrite Z1. transitivity (fsum (map (fun x => if eqb (rd [q] x) [false] then fmul k (fmul (psi x) (Cconj (psi x))) else f0) (cube N))); [|ring].
  destruct a; [|apply fsum_map_ext; intros x Hx; apply in_cube in Hx; destruct (eqb_spec (rd [q] x) [false]) as [E|E]; [|reflexivity]; rewrite rd1 in E; injection E as E; rewrite <- E at 1 2; rewrite set1_nth_id; reflexivity].
  (* flip the bit *)
  rewrite <- (fsum_perm (map (fun x => if eqb (rd [q] x) [true] then fmul k (fmul (psi (set1 x q false)) (Cconj (psi (set1 x q false)))) else f0) (map (fun x => set1 x q (negb (nth q x false))) (cube N)))).
  2:{ apply Permutation.Permutation_map. apply Permutation.NoDup_Permutation.
      - apply NoDup_map_inj_in; [|apply cube_NoDup]. intros x y Hx Hy E. apply in_cube in Hx, Hy.
        assert (E1 : negb (nth q x false) = negb (nth q y false)) by (rewrite <- (nth_set1_eq x q (negb (nth q x false))), <- (nth_set1_eq y q (negb (nth q y false))) by lia; now rewrite E).
        assert (E2 : nth q x false = nth q y false) by (destruct (nth q x false), (nth q y false); cbn in E1; congruence).
        rewrite <- (set1_nth_id q x), <- (set1_nth_id q y), <- (set1_set1 x q (negb (nth q x false)) (nth q x false)), E, E2, set1_set1. reflexivity.
      - apply cube_NoDup.
      - intros x. split; intros Hx.
        + apply in_map_iff in Hx. destruct Hx as (y & <- & Hy). apply in_cube. rewrite length_set1. now apply in_cube.
        + apply in_cube in Hx. apply in_map_iff. exists (set1 x q (negb (nth q x false))). split; [|apply in_cube; now rewrite length_set1].
          rewrite nth_set1_eq by lia. rewrite set1_set1, negb_involutive. apply set1_nth_id. }
  rewrite map_map. apply fsum_map_ext. intros x Hx. apply in_cube in Hx. rewrite !rd1, nth_set1_eq by lia. rewrite set1_set1.
  destruct (nth q x false) eqn:E; cbn [negb]; [reflexivity|]. assert (E' : set1 x q false = x) by (rewrite <- E; apply set1_nth_id). rewrite E'. reflexivity.
Qed.

(** Circuits of unitary gates keep norms. *)
Definition unitary_gate (N : nat) (g : ginstr) : Prop :=
  NoDup (gqubits g) /\ Forall (fun q => q < N) (gqubits g) /\
  forall z z', length z = length (gqubits g) -> length z' = length (gqubits g) ->
    fsum (map (fun o => fmul (gmat (gname g) (gparams g) o z) (Cconj (gmat (gname g) (gparams g) o z'))) (cube (length (gqubits g)))) = if eqb z z' then f1 else f0.
Lemma unitary_isometric N c : Forall (unitary_gate N) (gates c) -> isometric gmat N c.
Proof.
  unfold isometric. generalize (gates c) as gs. induction gs as [|g gs IH]; intros H psi; [reflexivity|].
  inversion H as [|? ? (Hn & Hl & HT) Hr]; subst. change (map (op_of gmat) (g :: gs)) with ([op_of gmat g] ++ map (op_of gmat) gs). rewrite run_app, IH by assumption.
  apply RtoC_inj. rewrite !norm2_C. apply (norm_gen Cconj cj_add cj_mul cj_0 N (gqubits g) (gmat (gname g) (gparams g))); auto.
Qed.
End Site.

(** * The SIC states *)
Lemma sic_tight a b : fmul (RtoC (1 / 2)) (fsum (map (fun l => at2 (sicpovm_preparation_matrix l) a b) [str "S0"; str "S1"; str "S2"; str "S3"])) = if Bool.eqb a b then f1 else f0.
Proof.
  cbn [map]. rewrite !fsum_cons, fsum_nil. rewrite sp_S0, sp_S1, sp_S2, sp_S3. unfold at2, thd, np_expi.
  assert (M : (- PI * 2 / 3 = - (PI * 2 / 3))%R) by field. rewrite M, cos_neg, sin_neg, cos_2pi3, sin_2pi3.
  destruct a, b; cbn [Nat.b2n m_at mat22 Bool.eqb]; apply injective_projections; cbn; lra.
Qed.
Lemma sic_equiangular : forall l l', In l [str "S0"; str "S1"; str "S2"; str "S3"] -> In l' [str "S0"; str "S1"; str "S2"; str "S3"] ->
  trace2 (at2 (sicpovm_preparation_matrix l)) (at2 (sicpovm_preparation_matrix l')) = RtoC (if eqb l l' then 1 else 1 / 3).
Proof.
  assert (M : (- PI * 2 / 3 = - (PI * 2 / 3))%R) by field.
  assert (E2 : (sqrt 2 * sqrt 2 = 2)%R) by (apply sqrt_sqrt; lra). assert (E3 : (sqrt 3 * sqrt 3 = 3)%R) by (apply sqrt_sqrt; lra).
  assert (E4 : (sqrt 2 * sqrt 2 * sqrt 3 = 2 * sqrt 3)%R) by (rewrite E2; ring). assert (E5 : (sqrt 2 * sqrt 2 * sqrt 3 * sqrt 3 = 6)%R) by (rewrite E2, Rmult_assoc, E3; ring).
  intros l l' Hl Hl'. unfold trace2. cbn [map]. rewrite !fsum_cons, !fsum_nil. cbn in Hl, Hl'.
  destruct Hl as [<-|[<-|[<-|[<-|[]]]]], Hl' as [<-|[<-|[<-|[<-|[]]]]];
    change ["S"%char; "0"%char] with (str "S0"); change ["S"%char; "1"%char] with (str "S1"); change ["S"%char; "2"%char] with (str "S2"); change ["S"%char; "3"%char] with (str "S3");
    rewrite ?sp_S0, ?sp_S1, ?sp_S2, ?sp_S3; unfold at2, thd, np_expi; cbn [Nat.b2n m_at mat22];
    rewrite ?M, ?cos_neg, ?sin_neg, ?cos_2pi3, ?sin_2pi3; apply injective_projections; cbn; try match goal with |- context[if ?b then _ else _] => let v := eval vm_compute in b in change b with v; cbv iota end; generalize dependent (sqrt 2); generalize dependent (sqrt 3); intros; lra.
Qed.
