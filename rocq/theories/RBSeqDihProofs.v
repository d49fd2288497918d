(** The CNOT-dihedral group of dihedral.py meets the contract of the sequence
    generator, on up to eight qubits. *)
From Coq Require Import QArith.
From Verif Require Import Base LinAlg QSem Cyc GateMat PyStr DihedralModel DihedralSpec DihedralGateProofs DihedralDecompProofs DihedralAlgebraProofs DihedralSetProofs DihedralValueProofs ResultFacts RBSeqModel RBSeqSpec RBSeqProofs RBSeqActProofs.
Open Scope nat_scope.

Definition bits_of (n : nat) (x : point) : bits := map x (seq 0 n).
Definition point_of (b : bits) : point := fun i => nth i b false.

Lemma length_bits_of n x : length (bits_of n x) = n.
Proof. unfold bits_of. rewrite map_length, seq_length. reflexivity. Qed.
Lemma nth_bits_of n x i : i < n -> nth i (bits_of n x) false = x i.
Proof. intros H. unfold bits_of. erewrite nth_indep; [rewrite (map_nth x) with (d := 0) | rewrite map_length, seq_length; exact H]. rewrite seq_nth by exact H. reflexivity. Qed.
Lemma bits_of_same n x y : same n x y -> bits_of n x = bits_of n y.
Proof. intros H. unfold bits_of. apply map_ext_in. intros i Hi. apply in_seq in Hi. apply H. lia. Qed.
Lemma bits_of_point n b : length b = n -> bits_of n (point_of b) = b.
Proof. intros H. apply bits_ext; [rewrite length_bits_of; auto|]. intros j Hj. rewrite length_bits_of in Hj. rewrite nth_bits_of by exact Hj. reflexivity. Qed.

Add Field CycField : cyc_field.

(** ** A gate that permutes basis states with a phase *)
Lemma fsum_single {A} `{Eqb A} (l : list A) a (w : cyc) (f : A -> cyc) : NoDup l -> In a l ->
  fsum (map (fun b => cymul (if eqb b a then w else cy0) (f b)) l) = cymul w (f a).
Proof.
  intros Hn Hi. rewrite <- (fsum_pick l a (fun b => cymul w (f b)) Hn Hi). apply fsum_map_ext. intros b _.
  destruct (eqb_spec b a) as [E1|E1], (eqb_spec a b) as [E2|E2]; try congruence. change 0%F with cy0. ring.
Qed.

Lemma cymul_assoc' a b c : cymul (cymul a b) c = cymul a (cymul b c).
Proof. ring. Qed.

Lemma nodup_cube n : NoDup (cube n).
Proof.
  induction n as [|n IH]; cbn [cube]; [repeat constructor; intros []|]. apply nodup_app_iff. 
  split; [apply FinFun.Injective_map_NoDup; [intros a b H; congruence | exact IH]|].
  split; [apply FinFun.Injective_map_NoDup; [intros a b H; congruence | exact IH]|].
  intros x Hx Hx'. apply in_map_iff in Hx, Hx'. destruct Hx as [a [<- _]], Hx' as [b [E _]]. discriminate.
Qed.

(** Restoring the bits of [qs]. *)
Lemma wr_back n qs x y : NoDup qs -> (forall q, In q qs -> q < n) -> (forall i, i < n -> ~ In i qs -> y i = x i) ->
  wr qs (rd qs (bits_of n x)) (bits_of n y) = bits_of n x.
Proof.
  intros Hn Hq He. apply bits_ext; [rewrite length_wr, !length_bits_of; reflexivity|]. intros j Hj. rewrite length_wr, length_bits_of in Hj.
  destruct (in_dec Nat.eq_dec j qs) as [Hi|Hi].
  - destruct (in_nth qs j Hi) as [i [Hil <-]]. rewrite wr_in; auto.
    + apply nth_rd, Hil.
    + apply length_rd.
    + rewrite length_bits_of. exact Hj.
  - rewrite wr_out by exact Hi. rewrite !nth_bits_of by exact Hj. apply He; assumption.
Qed.

Local Notation op_of := (op_of gate_mat).
Lemma gate_apply n g x k y psi : gate_action g x = Some (k, y) -> gqubits g <> [] -> NoDup (gqubits g) -> (forall q, In q (gqubits g) -> q < n) ->
  apply (op_of g) psi (bits_of n y) = cymul (omega k) (psi (bits_of n x)).
Proof.
  intros Hg Hne Hnd Hq.
  assert (Hout : forall i, i < n -> ~ In i (gqubits g) -> y i = x i).
  { intros i Hi Hni. unfold gate_action in Hg.
    repeat match type of Hg with (if eqb ?a ?b then _ else _) = _ => destruct (eqb a b) end; 
      destruct (gqubits g) as [|q [|q' [|]]]; try discriminate; try congruence;
      try (destruct (gparams g) as [|a [|]]; try discriminate; destruct (_ =? _)%Z; try discriminate);
      try (destruct (q =? q'); try discriminate);
      injection Hg as <- <-; try reflexivity; unfold upd.
    all: try (destruct (Nat.eqb_spec i q) as [->|]; [exfalso; apply Hni; left; reflexivity | reflexivity]).
    all: destruct (Nat.eqb_spec i q') as [->|]; [exfalso; apply Hni; right; left; reflexivity | reflexivity]. }
  unfold apply. cbn [o_mat o_qs RBSeqSpec.op_of].
  rewrite <- (wr_back n (gqubits g) x y Hnd Hq Hout).
  rewrite <- (fsum_single (cube (length (gqubits g))) (rd (gqubits g) (bits_of n x)) (omega k) (fun b => psi (wr (gqubits g) b (bits_of n y)))).
  2: apply nodup_cube. 2: apply in_cube, length_rd.
  apply fsum_map_ext. intros b Hb. apply in_cube in Hb.
  change (@fmul cyc _) with cymul. f_equal.
  assert (Hrx : forall z, rd (gqubits g) (bits_of n z) = map z (gqubits g)).
  { intros z. unfold rd. apply map_ext_in. intros q Hi. apply nth_bits_of, Hq, Hi. }
  rewrite !Hrx. clear Hrx Hout Hq.
  unfold gate_action in Hg. unfold gate_mat.
  destruct (eqb_spec (gname g) (str "x")) as [En|_].
  { rewrite En. cbn [eqb]. destruct (gqubits g) as [|q [|]]; try discriminate. injection Hg as <- <-. destruct b as [|c [|]]; try discriminate.
    cbn [map]. unfold upd. rewrite Nat.eqb_refl. destruct (x q), c; reflexivity. }
  destruct (eqb_spec (gname g) (str "y")) as [En|_].
  { rewrite En. destruct (gqubits g) as [|q [|]]; try discriminate. injection Hg as <- <-. destruct b as [|c [|]]; try discriminate.
    cbn [map]. unfold upd. rewrite Nat.eqb_refl. destruct (x q), c; reflexivity. }
  destruct (eqb_spec (gname g) (str "z")) as [En|_].
  { rewrite En. destruct (gqubits g) as [|q [|]]; try discriminate. injection Hg as <- <-. destruct b as [|c [|]]; try discriminate.
    cbn [map]. destruct (x q), c; reflexivity. }
  destruct (eqb_spec (gname g) (str "u1")) as [En|_].
  { rewrite En. destruct (gqubits g) as [|q [|]]; try discriminate. destruct (gparams g) as [|a [|]]; try discriminate. unfold angle.
    destruct (Z.pos (Qden a) =? 1)%Z; [|discriminate]. injection Hg as <- <-. destruct b as [|c [|]]; try discriminate.
    cbn [map]. destruct (x q), c; cbn [bit]; rewrite ?Z.mul_1_r, ?Z.mul_0_r; reflexivity. }
  destruct (eqb_spec (gname g) (str "cx")) as [En|_].
  { rewrite En. destruct (gqubits g) as [|q [|q' [|]]]; try discriminate. destruct (Nat.eqb_spec q q') as [|Hd]; [discriminate|]. injection Hg as <- <-.
    destruct b as [|c [|c' [|]]]; try discriminate.
    cbn [map]. unfold upd. rewrite Nat.eqb_refl. destruct (Nat.eqb_spec q q'); [contradiction|]. destruct (x q), (x q'), c, c'; reflexivity. }
  destruct (eqb_spec (gname g) (str "cz")) as [En|_].
  { rewrite En. destruct (gqubits g) as [|q [|q' [|]]]; try discriminate. destruct (Nat.eqb_spec q q') as [|Hd]; [discriminate|]. injection Hg as <- <-.
    destruct b as [|c [|c' [|]]]; try discriminate. cbn [map]. destruct (x q), (x q'), c, c'; reflexivity. }
  destruct (eqb_spec (gname g) (str "id")) as [En|_]; [|discriminate].
  injection Hg as <- <-. destruct (eqb_spec b (map x (gqubits g))) as [->|Hb'].
  - destruct (eqb_spec (map x (gqubits g)) (map x (gqubits g))); [reflexivity | congruence].
  - destruct (eqb_spec (map x (gqubits g)) b); [congruence | reflexivity].
Qed.

Lemma runs_apply n c : fits n c -> forall x k y psi, runs c x k y ->
  QSem.run (map op_of c) psi (bits_of n y) = cymul (omega k) (psi (bits_of n x)).
Proof.
  induction c as [|g c IH]; intros Hf x k y psi H.
  - destruct H as [-> ->]. cbn [map QSem.run]. change (omega 0) with cy1. ring.
  - destruct H as (k1 & x1 & k2 & Hg & Hr & ->). inversion Hf as [|? ? (F1 & F2 & F3) Hf']; subst. cbn [map QSem.run].
    rewrite (IH Hf' x1 k2 y _ Hr). rewrite (gate_apply n g x k1 x1 psi Hg F1 F2 F3). rewrite omega_add. ring.
Qed.

(** ** Circuits that implement elements *)
Lemma element_apply n c e : fits n c -> (forall g, In g c -> valid_gate n g) -> implements n c e ->
  exists g, forall x psi, QSem.run (map op_of c) psi (bits_of n (image e x)) = cymul (omega (g + phase_at e x)) (psi (bits_of n x)).
Proof.
  intros Hf Hv (g & H). exists (- g)%Z. intros x psi. destruct (H x) as (k & y & R & Hp & Hs).
  rewrite <- (bits_of_same n y _ Hs), (runs_apply n c Hf x k y psi R). f_equal. apply omega_mod. unfold eq8 in Hp.
  rewrite Zplus_mod, Hp, <- Zplus_mod. f_equal. lia.
Qed.

Lemma ginv_ginv g : ginv (ginv g) = g.
Proof.
  unfold ginv. destruct (eqb_spec (gname g) (str "u1")) as [E|E]; cbn [gname gparams gqubits].
  - destruct (eqb_spec (gname g) (str "u1")); [|contradiction]. destruct g as [nm ps qs]. cbn [gname gparams gqubits]. f_equal.
    rewrite map_map. rewrite <- (map_id ps) at 2. apply map_ext. intros [a b]. unfold Qopp. cbn. rewrite Z.opp_involutive. reflexivity.
  - destruct (eqb_spec (gname g) (str "u1")); [contradiction | reflexivity].
Qed.
Lemma circ_inverse_twice c : circ_inverse (circ_inverse c) = c.
Proof. unfold circ_inverse. rewrite map_rev, rev_involutive, map_map. rewrite <- (map_id c) at 2. apply map_ext, ginv_ginv. Qed.

Lemma image_onto n c e : (forall g, In g c -> valid_gate n g) -> implements n c e -> forall z, exists x, same n (image e x) z.
Proof.
  intros Hv Hi z. destruct (implements_run n c e Hi) as (g & H).
  pose proof (circ_inverse_valid n c Hv) as Hv'.
  destruct (runs_total n (circ_inverse c) z Hv') as (k & x & R).
  destruct (runs_inv n (circ_inverse c) Hv' z k x R) as (k' & z' & R' & _ & Hs'). rewrite circ_inverse_twice in R'.
  exists x. intros i Hi'. rewrite <- (proj2 (H x k' z' R') i Hi'). apply Hs', Hi'.
Qed.

(** ** The identity gates of a decomposition *)
Definition shaped (n : nat) (g : ginstr) : Prop := gname g <> str "id" \/ exists q, gqubits g = [q].

Lemma shaped_fits n g : valid_gate n g -> shaped n g -> gqubits g <> [] /\ NoDup (gqubits g) /\ forall q, In q (gqubits g) -> q < n.
Proof.
  intros [Hq Hg] [Hs|[q E]].
  2: { rewrite E in *. split; [discriminate|]. split; [repeat constructor; intros [] | exact Hq]. }
  unfold gate_action in Hg.
  repeat match type of Hg with (if eqb ?a ?b then _ else _) <> _ => destruct (eqb_spec a b) as [?|?] end; try congruence;
    destruct (gqubits g) as [|q [|q' [|]]] eqn:E; try congruence;
    try solve [split; [discriminate|]; split; [repeat constructor; intros [] | exact Hq]].
  all: destruct (Nat.eqb_spec q q') as [|Hd]; [congruence|]; split; [discriminate|]; split; [|exact Hq].
  all: repeat constructor; cbn; intuition.
Qed.

Lemma shaped_gx n q : shaped n (gx q). Proof. left. discriminate. Qed.
Lemma shaped_gu1 n k q : shaped n (gu1 k q). Proof. left. discriminate. Qed.
Lemma shaped_gcx n q r : shaped n (gcx q r). Proof. left. discriminate. Qed.
Lemma shaped_gcz n q r : shaped n (gcz q r). Proof. left. discriminate. Qed.
Lemma shaped_gid n q : shaped n (gid q). Proof. right. exists q. reflexivity. Qed.
Lemma shaped_inv n g : shaped n g -> shaped n (ginv g).
Proof. unfold shaped, ginv. destruct (eqb (gname g) (str "u1")); auto. Qed.

Ltac shapes := repeat first [ apply Forall_app; split | apply Forall_nil | apply Forall_cons
  | apply shaped_gx | apply shaped_gu1 | apply shaped_gcx | apply shaped_gcz | apply shaped_gid
  | match goal with |- Forall _ (opt ?b _) => destruct b; cbn [opt] | |- Forall _ (if ?b then _ else _) => destruct b
    | |- Forall _ (head2 _ _ _ _) => unfold head2
    | |- context [mt ?a ?b ?c ?d] => destruct (mt a b c d) as [[? ?] ?] end ].

Lemma decompose2_shaped n e c : decompose2 e = Ok c -> Forall (shaped n) c.
Proof.
  unfold decompose2. destruct (2 <? dn e); [discriminate|]. destruct (dn e =? 1).
  - destruct (_ || _); [discriminate|]. intros H. repeat inv_bind H. injection H as <-. shapes.
  - destruct (negb _); [discriminate|]. intros H. repeat inv_bind H. injection H as <-. shapes.
Qed.

Definition shaped_acc n (a : acc) : Prop := Forall (shaped n) (snd a).
Lemma do_cx_shaped n a i j a' : do_cx a i j = Ok a' -> shaped_acc n a -> shaped_acc n a'.
Proof. unfold do_cx. intros H Ha. repeat inv_bind H. injection H as <-. unfold shaped_acc. cbn [snd]. shapes. exact Ha. Qed.
Lemma do_x_shaped n a i a' : do_x a i = Ok a' -> shaped_acc n a -> shaped_acc n a'.
Proof. unfold do_x. intros H Ha. repeat inv_bind H. injection H as <-. unfold shaped_acc. cbn [snd]. shapes. exact Ha. Qed.
Lemma do_u1_shaped n a k i a' : do_u1 a k i = Ok a' -> shaped_acc n a -> shaped_acc n a'.
Proof. unfold do_u1. intros H Ha. repeat inv_bind H. injection H as <-. unfold shaped_acc. cbn [snd]. shapes. exact Ha. Qed.
Lemma foldM_keeps {A S} (P : S -> Prop) (f : S -> A -> result S) l : (forall s a s', In a l -> f s a = Ok s' -> P s -> P s') ->
  forall s s', foldM f l s = Ok s' -> P s -> P s'.
Proof.
  induction l as [|a l IH]; intros Hf s s' H Hs; cbn [foldM] in H; [injection H as <-; exact Hs|].
  repeat inv_bind H. apply (IH (fun s a s' Hi => Hf s a s' (or_intror Hi)) _ _ H). eapply Hf; [left; reflexivity | eassumption | exact Hs].
Qed.
Ltac steps := repeat match goal with H : _ = Ok ?a |- shaped_acc _ ?a =>
   first [ (apply (do_cx_shaped _ _ _ _ _ H)) | (apply (do_x_shaped _ _ _ _ H)) | (apply (do_u1_shaped _ _ _ _ _ H)) | (injection H as <-) ] end; auto.

Lemma gauss_column_shaped n m a i a' : gauss_column m a i = Ok a' -> shaped_acc n a -> shaped_acc n a'.
Proof.
  unfold gauss_column. intros H Ha. repeat inv_bind H. apply (foldM_keeps (shaped_acc n)) in H; [exact H| |].
  - intros s j s' _ Es Hs. destruct (_ && _); steps.
  - destruct (entry (fst a) i i); [steps|]. destruct (find _ _); [|steps]. repeat inv_bind E. steps.
Qed.
Lemma reduce_affine_shaped n e a : reduce_affine e = Ok a -> shaped_acc n a.
Proof.
  unfold reduce_affine. intros H. repeat inv_bind H. apply (foldM_keeps (shaped_acc n)) in H; [exact H| |].
  - intros s j s' _ Es Hs. apply (gauss_column_shaped n _ _ _ _ Es Hs).
  - apply (foldM_keeps (shaped_acc n)) in E; [exact E | | constructor]. intros s j s' _ Es Hs. destruct (nth j (dshift e) false); steps.
Qed.
Lemma build_poly_shaped n m t a : build_poly m t = Ok a -> shaped_acc n a.
Proof.
  unfold build_poly. intros H. repeat inv_bind H. apply (foldM_keeps (shaped_acc n)) in H; [exact H| |].
  - intros s j s' _ Es Hs. unfold build1 in Es. repeat inv_bind Es. destruct (_ =? _)%Z; steps.
  - apply (foldM_keeps (shaped_acc n)) in E1; [exact E1| |].
    + intros s j s' _ Es Hs. unfold build2 in Es. destruct j as [|? [|? [|]]]; try (injection Es as <-; exact Hs). repeat inv_bind Es. destruct (_ =? _)%Z; [steps|]. repeat inv_bind Es. steps.
    + apply (foldM_keeps (shaped_acc n)) in E0; [exact E0 | | constructor].
      intros s j s' _ Es Hs. unfold build3 in Es. destruct j as [|? [|? [|? [|]]]]; try (injection Es as <-; exact Hs). repeat inv_bind Es. destruct (_ =? _)%Z; [steps|]. repeat inv_bind Es. steps.
Qed.
Lemma decompose_shaped det n e c : decompose det e = Ok c -> Forall (shaped n) c.
Proof.
  unfold decompose. destruct (dn e <? 3); [apply decompose2_shaped|]. unfold decompose_general. destruct (negb _); [discriminate|]. intros H.
  inv_bind H. destruct v as [ec circ]. destruct (_ || _); [discriminate|]. inv_bind H. destruct v as [ne nc]. destruct (negb _); [discriminate|]. injection H as <-. apply Forall_app. split.
  - eapply build_poly_shaped in E0. exact E0.
  - unfold circ_inverse. apply Forall_rev. apply Forall_forall. intros g Hg. apply in_map_iff in Hg as (g' & <- & Hg). apply shaped_inv.
    eapply reduce_affine_shaped in E. unfold shaped_acc in E. rewrite Forall_forall in E. apply E, Hg.
Qed.

(** ** The group *)
Section Group.
Variable det_odd : list (list bool) -> bool.
Hypothesis Hdet : decides_invertible det_odd.
Variable draw : nat -> option Z -> nat -> result cdi.

(** What [randomized_benchmarking_seq] uses of dihedral.py: [compose],
    [to_circuit], [adjoint] followed by [to_circuit] is not used, the inverse
    being [to_circuit().inverse()] (rb/rb_groups.py:131-137). *)
Definition dihedral_group : group := {|
  elem := cdi; g_iden := cdi_id; g_random := draw; g_compose := fun a b => compose cpython_union a b false;
  g_circuit := decompose det_odd; g_inverse := fun e => do c <- decompose det_odd e; Ok (circ_inverse c);
  g_from_circuit := fun n nm c => from_circuit n nm c |}.

Definition in_use (n : nat) (e : cdi) : Prop := wf_cdi n e /\ w0 (dpoly e) = 0%Z.

Lemma decompose_facts n e : in_use n e -> exists c, decompose det_odd e = Ok c /\ fits n c /\ (forall g, In g c -> valid_gate n g) /\ implements n c e.
Proof.
  intros [W Z]. destruct (decompose_spec det_odd Hdet n e W Z) as (c & E & Fp & I). exists c. split; [exact E|].
  assert (V : forall g, In g c -> valid_gate n g) by (intros g Hg; rewrite Forall_forall in Fp; apply Fp, Hg).
  split; [|split; [exact V | exact I]]. pose proof (decompose_shaped det_odd n e c E) as S. rewrite Forall_forall in S. apply Forall_forall. intros g Hg. apply shaped_fits; auto.
Qed.

Lemma fits_inverse n c : fits n c -> fits n (circ_inverse c).
Proof.
  unfold fits, circ_inverse. intros H. apply Forall_rev. rewrite Forall_forall in *. intros g Hg. apply in_map_iff in Hg as (g' & <- & Hg).
  specialize (H g' Hg). unfold ginv. destruct (eqb (gname g') (str "u1")); exact H.
Qed.

Lemma dihedral_lawful n : 1 <= n <= 8 -> lawful gate_mat dihedral_group n (in_use n).
Proof.
  intros [H1 H8]. constructor.
  - intros a Ha. destruct (decompose_facts n a Ha) as (c & E & Hf & _). exists c. auto.
  - destruct (id_spec n H1) as (e & E & W & P & _ & _ & Ph & Im). exists e. split; [exact E|].
    assert (U : in_use n e) by (split; [exact W | rewrite P; reflexivity]). split; [exact U|]. intros c Ec.
    destruct (decompose_facts n e U) as (c' & E' & Hf & V & I). cbn in Ec. rewrite E' in Ec. injection Ec as <-.
    destruct (element_apply n c' e Hf V I) as (g & Hg). exists (omega g). split; [apply omega_neq_0|]. intros psi x Hx.
    rewrite <- (bits_of_point n x Hx). rewrite <- (bits_of_same n _ _ (Im (point_of x))), Hg, Ph, Z.add_0_r, (bits_of_same n _ _ (Im (point_of x))). reflexivity.
  - intros a b Ha Hb. destruct (compose_spec cpython_union n (cpython_sorted n H8) a b false (proj1 Ha) (proj1 Hb)) as (e & E & W & Z & Im & g & Ph).
    cbn in Im, Ph. exists e. split; [exact E|]. assert (U : in_use n e) by (split; assumption). split; [exact U|]. intros ca cb ce Ea Eb Ee. cbn in Ea, Eb, Ee.
    destruct (decompose_facts n a Ha) as (ca' & Ea' & Fa & Va & Ia). rewrite Ea' in Ea. injection Ea as <-.
    destruct (decompose_facts n b Hb) as (cb' & Eb' & Fb & Vb & Ib). rewrite Eb' in Eb. injection Eb as <-.
    destruct (decompose_facts n e U) as (ce' & Ee' & Fe & Ve & Ie). rewrite Ee' in Ee. injection Ee as <-.
    destruct (element_apply n _ a Fa Va Ia) as (ga & Ga). destruct (element_apply n _ b Fb Vb Ib) as (gb & Gb). destruct (element_apply n _ e Fe Ve Ie) as (ge & Ge).
    exists (omega (ge + g - ga - gb)). split; [apply omega_neq_0|]. intros psi z Hz.
    destruct (image_onto n ce' e Ve Ie (point_of z)) as (x & Hx). apply bits_of_same in Hx. rewrite (bits_of_point n z Hz) in Hx. rewrite <- Hx, Ge.
    rewrite (bits_of_same n _ _ (Im x)), map_app, run_app, Gb, Ga.
    change (@fmul cyc _) with cymul. rewrite <- !cymul_assoc', <- !omega_add.
    f_equal. apply omega_mod. unfold eq8 in Ph. rewrite Zplus_mod, Ph, <- Zplus_mod. f_equal. lia.
  - intros a Ha. destruct (decompose_facts n a Ha) as (c & E & Hf & V & I). exists (circ_inverse c). cbn. rewrite E. split; [reflexivity|]. split; [apply fits_inverse, Hf|].
    intros c' [= <-]. exists (omega 0). split; [apply omega_neq_0|]. intros psi z Hz.
    rewrite map_app, run_app. cbn [map QSem.run].
    destruct (image_onto n c a V I (point_of z)) as (x & Hx).
    (* start from the point whose inverse image is [z] *)
    destruct (runs_total n c (point_of z) V) as (k & y & R). destruct (runs_inv n c V _ k y R) as (k' & x' & R' & Hk & Hs).
    rewrite <- (bits_of_point n z Hz). rewrite <- (bits_of_same n _ _ Hs) at 1.
    rewrite (runs_apply n _ (fits_inverse n c Hf) y k' x' _ R'), (runs_apply n c Hf _ k y psi R).
    change (@fmul cyc _) with cymul. rewrite <- cymul_assoc', <- omega_add. f_equal. apply omega_mod. unfold eq8 in Hk. rewrite Zplus_mod, Hk, <- Zplus_mod. f_equal. lia.
Qed.
End Group.

Lemma h_twice : h_involution gate_mat.
Proof.
  exists cy1. split; [discriminate|]. intros psi x Hx. destruct x as [|b [|]]; try discriminate.
  pose proof rsqrt2_ok as Hr.
  assert (E : forall p c, apply (op_of {| gname := str "h"; gparams := []; gqubits := [0] |}) p [c] =
    cyadd (cymul rsqrt2 (p [false])) (cymul (if c then cyopp rsqrt2 else rsqrt2) (p [true]))).
  { intros p c. unfold apply. cbn [o_mat o_qs RBSeqSpec.op_of gqubits length cube map app gname gparams].
    change (wr [0] [false] [c]) with [false]. change (wr [0] [true] [c]) with [true]. change (rd [0] [c]) with [c].
    unfold fsum. cbn [fold_right]. unfold gate_mat. cbn [eqb].
    destruct c; (change (@fmul cyc _) with cymul; change (@fadd cyc _) with cyadd; change (@f0 cyc _) with cy0;
      repeat match goal with |- context [eqb (str ?a) (str ?b)] => let v := eval vm_compute in (eqb (str a) (str b)) in change (eqb (str a) (str b)) with v end; cbn [andb]; ring). }
  cbn [map QSem.run]. rewrite !E. change (@fmul cyc _) with cymul. revert Hr. generalize rsqrt2. intros r Hr.
  destruct b.
  - transitivity (cymul (cymul (cyadd r r) r) (psi [true])); [ring | rewrite Hr; reflexivity].
  - transitivity (cymul (cymul (cyadd r r) r) (psi [false])); [ring | rewrite Hr; reflexivity].
Qed.
