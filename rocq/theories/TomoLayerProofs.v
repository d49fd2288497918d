(** Layers of single-qubit circuits, and what a measurement of some qubits finds. *)
From Coq Require Import QArith.
From Verif Require Import Base LinAlg QSem DihedralModel RBSeqModel RBSeqSpec StdGates AccProbProofs TomoCircProofs.
From Verif Require Import TomoFitSpec.
Local Open Scope list_scope.
Local Open Scope nat_scope.

Section Layers.
Context {F : Type} {HF : Fld F}.
Add Field FldFieldT : fth.
Local Open Scope fld_scope.

Definition mul2 (A B : bool -> bool -> F) : bool -> bool -> F := fun a b => A a false * B false b + A a true * B true b.
Definition one2 (a b : bool) : F := if Bool.eqb a b then 1 else 0.

Lemma acts_nil q : acts [] q one2.
Proof.
  intros psi x Hx. cbn [run]. rewrite <- (set1_same x q) at 1. destruct (nth q x false); cbn; ring.
Qed.
Lemma acts_app ops ops' q V V' : acts ops q V -> acts ops' q V' -> acts (ops ++ ops') q (mul2 V' V).
Proof.
  intros H H' psi x Hx. rewrite run_app. rewrite H' by assumption. rewrite !H by (rewrite length_set1; assumption).
  rewrite !nth_set1_eq by assumption. rewrite !set1_set1. unfold mul2. ring.
Qed.
Lemma acts_ext ops q V V' : (forall a b, V a b = V' a b) -> acts ops q V -> acts ops q V'.
Proof. intros E H psi x Hx. rewrite <- !E. now apply H. Qed.
Lemma acts_gate gmat name ps q : acts [op_of gmat {| gname := name; gparams := ps; gqubits := [q] |}] q (fun a b => gmat name ps [a] [b]).
Proof. intros psi x Hx. cbn [run]. apply apply1. Qed.

(** A layer on distinct qubits. *)
Lemma run_layer N qs (opss : list (list (op F))) Vs :
  NoDup qs -> Forall (fun q => q < N) qs -> Forall2 (fun q oV => acts (fst oV) q (snd oV)) qs (combine opss Vs) -> length opss = length Vs ->
  forall psi x, length x = N ->
  run (concat opss) psi x = fsum (map (fun z => tensor Vs (rd qs x) z * psi (wr qs z x)) (cube (length qs))).
Proof.
  revert opss Vs. induction qs as [|q qs IH]; intros opss Vs Hn Hlt H2 Hl psi x Hx.
  - destruct opss as [|o opss], Vs as [|V Vs]; try discriminate; [|inversion H2]. cbn. rewrite ?fsum_cons, ?fsum_nil. unfold fsum. cbn. ring.
  - destruct opss as [|o opss], Vs as [|V Vs]; try discriminate; [inversion H2|]. cbn [combine] in H2. inversion H2 as [|? ? ? ? Ho Hr]; subst. cbn [fst snd] in Ho.
    inversion Hn; subst. inversion Hlt; subst. cbn [concat]. rewrite run_app. rewrite (IH opss Vs); auto.
    cbn [length cube]. rewrite map_app, fsum_app, !map_map. rewrite <- fsum_map_add. apply fsum_map_ext. intros z Hz. apply in_cube in Hz.
    rewrite Ho by (rewrite length_wr; assumption). cbn [rd map tensor wr]. fold (rd qs x).
    rewrite (wr_out qs) by assumption. ring.
Qed.

(** Sums over the bits outside [qs]. *)
Lemma fsum_env N qs a b (h : bits -> F) :
  NoDup qs -> Forall (fun q => q < N) qs -> length a = length qs -> length b = length qs ->
  fsum (map (fun x => if eqb (rd qs x) a then h (wr qs b x) else 0) (cube N)) =
  fsum (map (fun x => if eqb (rd qs x) b then h x else 0) (cube N)).
Proof.
  intros Hn Hlt Ha Hb. rewrite Forall_forall in Hlt.
  assert (filt : forall (c : bits) (g : bits -> F), fsum (map (fun x => if eqb (rd qs x) c then g x else 0) (cube N)) = fsum (map g (filter (fun x => eqb (rd qs x) c) (cube N)))).
  { intros c g. generalize (cube N) as l. induction l as [|x l IHl]; cbn [map filter]; [reflexivity|]. rewrite fsum_cons, IHl. destruct (eqb (rd qs x) c); cbn [map]; rewrite ?fsum_cons; ring. }
  rewrite !filt. rewrite <- (map_map (wr qs b) h). apply fsum_perm. apply Permutation_map. apply NoDup_Permutation.
  - apply TomoCircProofs.NoDup_map_inj_in; [|apply NoDup_filter, cube_NoDup]. intros x y Hx Hy E. apply filter_In in Hx, Hy. destruct Hx as [Hx Ex], Hy as [Hy Ey].
    apply in_cube in Hx, Hy. destruct (eqb_spec (rd qs x) a) as [Ex'|]; [|discriminate]. destruct (eqb_spec (rd qs y) a) as [Ey'|]; [|discriminate].
    assert (E' : wr qs a (wr qs b x) = wr qs a (wr qs b y)) by now rewrite E.
    assert (K : forall u, length u = N -> rd qs u = a -> wr qs a (wr qs b u) = u).
    { intros u Hu Eu. apply bits_ext; [now rewrite !length_wr|]. intros j Hj. rewrite !length_wr in Hj.
      destruct (in_dec Nat.eq_dec j qs) as [Hi|Hi]; [|now rewrite !wr_out].
      apply in_nth in Hi. destruct Hi as (k & Hk & <-). rewrite wr_in; auto; [|rewrite length_wr, Hu; apply Hlt, nth_In; assumption].
      rewrite <- Eu. apply nth_rd. assumption. }
    rewrite !K in E' by assumption. assumption.
  - apply NoDup_filter, cube_NoDup.
  - intros y. rewrite in_map_iff. split.
    + intros (x & <- & Hx). apply filter_In in Hx. destruct Hx as [Hx _]. apply in_cube in Hx. apply filter_In. split; [apply in_cube; now rewrite length_wr|].
      rewrite rd_wr; auto; [apply eqb_refl|]. intros q Hq. rewrite Hx. auto.
    + intros Hy. apply filter_In in Hy. destruct Hy as [Hy Ey]. apply in_cube in Hy. destruct (eqb_spec (rd qs y) b) as [Ey'|]; [|discriminate].
      exists (wr qs a y). split.
      * apply bits_ext; [now rewrite !length_wr|]. intros j Hj. destruct (in_dec Nat.eq_dec j qs) as [Hi|Hi]; [|now rewrite !wr_out].
        apply in_nth in Hi. destruct Hi as (k & Hk & <-). rewrite wr_in; auto; [|rewrite length_wr, Hy; apply Hlt, nth_In; assumption].
        rewrite <- Ey'. apply nth_rd. assumption.
      * apply filter_In. split; [apply in_cube; now rewrite length_wr|]. rewrite rd_wr; auto; [apply eqb_refl|]. intros q Hq. rewrite Hy. auto.
Qed.
Lemma wr_wr_same N qs a b x : NoDup qs -> Forall (fun q => q < N) qs -> length a = length qs -> length b = length qs -> length x = N -> wr qs a (wr qs b x) = wr qs a x.
Proof.
  intros Hn Hlt Ha Hb Hx. rewrite Forall_forall in Hlt. apply bits_ext; [now rewrite !length_wr|]. intros j Hj.
  destruct (in_dec Nat.eq_dec j qs) as [Hi|Hi]; [|now rewrite !wr_out].
  apply in_nth in Hi. destruct Hi as (k & Hk & <-). rewrite !wr_in; auto; rewrite ?length_wr, ?Hx; apply Hlt, nth_In; assumption.
Qed.

Variable cj : F -> F.
Hypothesis cj_add : forall a b, cj (a + b) = cj a + cj b.
Hypothesis cj_mul : forall a b, cj (a * b) = cj a * cj b.
Hypothesis cj_0 : cj 0 = 0.
Hypothesis cj_1 : cj 1 = 1.

Lemma cj_sum {A} (f : A -> F) l : cj (fsum (map f l)) = fsum (map (fun a => cj (f a)) l).
Proof. induction l as [|a l IH]; cbn [map]; [apply cj_0|]. now rewrite !fsum_cons, cj_add, IH. Qed.

Lemma reduced_add_l N qs p p' q a b : reduced cj N qs (fun x => p x + p' x) q a b = reduced cj N qs p q a b + reduced cj N qs p' q a b.
Proof. unfold reduced. rewrite <- fsum_map_add. apply fsum_map_ext. intros x _. destruct (eqb (rd qs x) a); ring. Qed.

(** Measuring [qs] after an operation [T] on them. *)
Lemma born_gen N qs (T : bits -> bits -> F) (psi phi : amp F) :
  NoDup qs -> Forall (fun q => q < N) qs ->
  (forall x, length x = N -> phi x = fsum (map (fun z => T (rd qs x) z * psi (wr qs z x)) (cube (length qs)))) ->
  forall o, length o = length qs ->
  fsum (map (fun x => if eqb (rd qs x) o then phi x * cj (phi x) else 0) (cube N)) =
  fsum (map (fun z => fsum (map (fun z' => T o z * cj (T o z') * reduced cj N qs psi psi z z') (cube (length qs)))) (cube (length qs))).
Proof.
  intros Hn Hlt Hphi o Ho.
  transitivity (fsum (map (fun x => fsum (map (fun z => fsum (map (fun z' => if eqb (rd qs x) o then T o z * cj (T o z') * (psi (wr qs z x) * cj (psi (wr qs z' x))) else 0) (cube (length qs)))) (cube (length qs)))) (cube N))).
  - apply fsum_map_ext. intros x Hx. apply in_cube in Hx. destruct (eqb_spec (rd qs x) o) as [E|E].
    + rewrite Hphi by assumption. rewrite E. rewrite cj_sum. rewrite <- fsum_map_mul_r. apply fsum_map_ext. intros z _.
      rewrite <- fsum_map_mul. apply fsum_map_ext. intros z' _. rewrite cj_mul. ring.
    + symmetry. apply fsum_map_zero'. intros z _. apply fsum_map_zero'. intros z' _. reflexivity.
  - rewrite fsum_swap. apply fsum_map_ext. intros z Hz. rewrite fsum_swap. apply fsum_map_ext. intros z' Hz'. apply in_cube in Hz, Hz'.
    unfold reduced. rewrite <- (fsum_env N qs o z (fun x => psi x * cj (psi (wr qs z' x)))) by assumption.
    rewrite <- fsum_map_mul. apply fsum_map_ext. intros x Hx. apply in_cube in Hx. rewrite (wr_wr_same N) by assumption. destruct (eqb (rd qs x) o); ring.
Qed.

(** The sum over all the outcomes. *)
Lemma fsum_classes N qs (h : bits -> F) :
  fsum (map (fun o => fsum (map (fun x => if eqb (rd qs x) o then h x else 0) (cube N))) (cube (length qs))) = fsum (map h (cube N)).
Proof.
  rewrite fsum_swap. apply fsum_map_ext. intros x _.
  apply (fsum_pick (cube (length qs)) (rd qs x) (fun _ => h x)); [apply cube_NoDup|apply in_cube, length_rd].
Qed.
(** An operation [T] with T* T = 1 keeps the norm. *)
Lemma norm_gen N qs (T : bits -> bits -> F) (psi phi : amp F) :
  NoDup qs -> Forall (fun q => q < N) qs ->
  (forall x, length x = N -> phi x = fsum (map (fun z => T (rd qs x) z * psi (wr qs z x)) (cube (length qs)))) ->
  (forall z z', length z = length qs -> length z' = length qs -> fsum (map (fun o => T o z * cj (T o z')) (cube (length qs))) = if eqb z z' then 1 else 0) ->
  fsum (map (fun x => phi x * cj (phi x)) (cube N)) = fsum (map (fun x => psi x * cj (psi x)) (cube N)).
Proof.
  intros Hn Hlt Hphi HT. rewrite <- (fsum_classes N qs (fun x => phi x * cj (phi x))).
  rewrite (fsum_map_ext _ (fun o => fsum (map (fun z => fsum (map (fun z' => T o z * cj (T o z') * reduced cj N qs psi psi z z') (cube (length qs)))) (cube (length qs))))).
  2:{ intros o Ho. apply in_cube in Ho. apply born_gen; assumption. }
  rewrite fsum_swap. rewrite <- (fsum_classes N qs (fun x => psi x * cj (psi x))). apply fsum_map_ext. intros z Hz. apply in_cube in Hz.
  rewrite fsum_swap.
  rewrite (fsum_map_ext _ (fun z' => if eqb z z' then reduced cj N qs psi psi z z' else 0)).
  2:{ intros z' Hz'. apply in_cube in Hz'. rewrite fsum_map_mul_r. rewrite HT by assumption. destruct (eqb z z'); ring. }
  rewrite fsum_pick; [|apply cube_NoDup|now apply in_cube]. unfold reduced. apply fsum_map_ext. intros x Hx. apply in_cube in Hx.
  destruct (eqb_spec (rd qs x) z) as [<-|]; [|reflexivity]. rewrite wr_rd; auto. intros q Hq. rewrite Hx. rewrite Forall_forall in Hlt. auto.
Qed.
Lemma tensor_complete (Vs : list (bool -> bool -> F)) :
  Forall (fun V => forall a b, V false a * cj (V false b) + V true a * cj (V true b) = if Bool.eqb a b then 1 else 0) Vs ->
  forall z z', length z = length Vs -> length z' = length Vs ->
  fsum (map (fun o => tensor Vs o z * cj (tensor Vs o z')) (cube (length Vs))) = if eqb z z' then 1 else 0.
Proof.
  induction 1 as [|V Vs HV _ IH]; intros [|a z] [|b z'] Hz Hz'; try discriminate.
  - cbn [length cube map tensor]. rewrite fsum_cons, fsum_nil, cj_1. change (eqb (@nil bool) []) with true. cbn. ring.
  - cbn [length cube]. rewrite map_app, fsum_app, !map_map. cbn [tensor].
    assert (K : forall c, fsum (map (fun x => V c a * tensor Vs x z * cj (V c b * tensor Vs x z')) (cube (length Vs))) = V c a * cj (V c b) * (if eqb z z' then 1 else 0)).
    { intros c. injection Hz as Hz. injection Hz' as Hz'. rewrite <- (IH z z' Hz Hz'). rewrite <- fsum_map_mul. apply fsum_map_ext. intros x _. rewrite cj_mul. ring. }
    rewrite !K. transitivity ((V false a * cj (V false b) + V true a * cj (V true b)) * (if eqb z z' then 1 else 0)); [ring|]. rewrite HV.
    destruct (Bool.eqb a b) eqn:Eab.
    + apply Bool.eqb_prop in Eab. subst b. destruct (eqb_spec z z') as [->|Nz].
      * rewrite eqb_refl. ring.
      * destruct (eqb_spec (a :: z) (a :: z')) as [E|]; [congruence|]. ring.
    + destruct (eqb_spec (a :: z) (b :: z')) as [E|]; [|ring]. injection E as -> _. rewrite Bool.eqb_reflx in Eab. discriminate.
Qed.

(** Superpositions. *)
Lemma apply_sum {A} (o : op F) (l : list A) (c : A -> F) (f : A -> amp F) x :
  apply o (fun y => fsum (map (fun a => c a * f a y) l)) x = fsum (map (fun a => c a * apply o (f a) x) l).
Proof.
  unfold apply. rewrite (fsum_map_ext _ (fun z => fsum (map (fun a => c a * (o_mat o (rd (o_qs o) x) z * f a (wr (o_qs o) z x))) l))).
  2:{ intros z _. rewrite <- fsum_map_mul. apply fsum_map_ext. intros a _. ring. }
  rewrite fsum_swap. apply fsum_map_ext. intros a _. now rewrite fsum_map_mul.
Qed.
Lemma run_sum {A} (ops : list (op F)) (l : list A) (c : A -> F) : forall (f : A -> amp F) N,
  eqa N (run ops (fun y => fsum (map (fun a => c a * f a y) l))) (fun x => fsum (map (fun a => c a * run ops (f a) x) l)).
Proof.
  induction ops as [|o ops IH]; intros f N x Hx; [reflexivity|]. cbn [run].
  rewrite (run_ext N ops _ (fun x => fsum (map (fun a => c a * apply o (f a) x) l))); [|intros y _; apply apply_sum|assumption].
  apply (IH (fun a => apply o (f a)) N x Hx).
Qed.
Lemma reduced_sum {A} N qs (l : list A) (c : A -> F) (f : A -> amp F) a b :
  reduced cj N qs (fun y => fsum (map (fun i => c i * f i y) l)) (fun y => fsum (map (fun i => c i * f i y) l)) a b =
  fsum (map (fun i => fsum (map (fun j => c i * cj (c j) * reduced cj N qs (f i) (f j) a b) l)) l).
Proof.
  unfold reduced.
  rewrite (fsum_map_ext _ (fun x => fsum (map (fun i => fsum (map (fun j => c i * cj (c j) * (if eqb (rd qs x) a then f i x * cj (f j (wr qs b x)) else 0)) l)) l))).
  - rewrite fsum_swap. apply fsum_map_ext. intros i _. rewrite fsum_swap. apply fsum_map_ext. intros j _. now rewrite fsum_map_mul.
  - intros x _. destruct (eqb (rd qs x) a).
    + rewrite cj_sum. rewrite <- fsum_map_mul_r. apply fsum_map_ext. intros i _. rewrite <- fsum_map_mul. apply fsum_map_ext. intros j _. rewrite cj_mul. ring.
    + symmetry. apply fsum_map_zero'. intros i _. apply fsum_map_zero'. intros j _. ring.
Qed.
Lemma reduced_ext N qs p p' q q' a b : (forall x, length x = N -> p x = p' x) -> (forall x, length x = N -> q x = q' x) -> reduced cj N qs p q a b = reduced cj N qs p' q' a b.
Proof.
  intros Hp Hq. unfold reduced. apply fsum_map_ext. intros x Hx. apply in_cube in Hx. rewrite Hp by assumption. rewrite Hq by (rewrite length_wr; assumption). reflexivity.
Qed.
End Layers.
