(** Proofs about the quantum one-time pad (C36). *)
From Coq Require Import QArith Permutation.
From Verif Require Import Base LinAlg ResultFacts QSem CountsModel DihedralModel RBSeqModel RBSeqSpec RBSeqActProofs StdGates AccModel AccSpec AccLayerProofs.
Open Scope nat_scope.

Lemma length_xors a b : length (xors a b) = Nat.min (length a) (length b).
Proof. unfold xors. rewrite map_length, combine_length. reflexivity. Qed.
Lemma nth_xors a b j : length a = length b -> nth j (xors a b) false = xorb (nth j a false) (nth j b false).
Proof. revert b j; induction a as [|x a IH]; intros [|y b] [|j] H; cbn in *; try discriminate; auto. apply IH. lia. Qed.
Lemma xors_xors y x : length x = length y -> xors (xors y x) x = y.
Proof.
  intros H. apply bits_ext; [rewrite !length_xors; lia|]. intros j _.
  rewrite !nth_xors; [|lia|rewrite length_xors; lia]. destruct (nth j y false), (nth j x false); reflexivity.
Qed.
Lemma length_draw rnd pos n : length (draw rnd pos n) = n.
Proof. unfold draw. rewrite map_length, seq_length. reflexivity. Qed.

(** Parity of the bits common to two vectors. *)
Definition par (l : list bool) : bool := fold_right xorb false l.
Definition dot (n : nat) (z y : bits) : bool := par (map (fun q => bit z q && bit y q) (seq 0 n)).

Lemma par_xor {A} (f g : A -> bool) l : par (map (fun a => xorb (f a) (g a)) l) = xorb (par (map f l)) (par (map g l)).
Proof. induction l as [|a l IH]; [reflexivity|]. cbn. unfold par in IH. rewrite IH. destruct (f a), (g a), (fold_right xorb false (map f l)), (fold_right xorb false (map g l)); reflexivity. Qed.
Lemma par_ext {A} (f g : A -> bool) l : (forall a, In a l -> f a = g a) -> par (map f l) = par (map g l).
Proof. intros H. f_equal. apply map_ext_in, H. Qed.
(** Changing one entry. *)
Lemma par_change (f g : nat -> bool) q l : NoDup l -> In q l -> (forall a, a <> q -> f a = g a) ->
  par (map f l) = xorb (par (map g l)) (xorb (f q) (g q)).
Proof.
  intros Hd Hq He. induction l as [|a l IH]; [destruct Hq|]. apply NoDup_cons_iff in Hd. destruct Hd as [Ha Hd]. cbn [map par fold_right].
  fold (par (map f l)). fold (par (map g l)). destruct (Nat.eq_dec a q) as [->|Hn].
  - rewrite (par_ext f g l); [|intros b Hb; apply He; intros ->; contradiction]. destruct (f q), (g q), (par (map g l)); reflexivity.
  - destruct Hq as [->|Hq]; [contradiction|]. rewrite IH by auto. rewrite (He a Hn). destruct (g a), (par (map g l)), (f q), (g q); reflexivity.
Qed.

Lemma dot_xors n z y x : length y = n -> length x = n -> dot n z (xors y x) = xorb (dot n z y) (dot n z x).
Proof.
  intros Hy Hx. unfold dot. rewrite <- par_xor. apply par_ext. intros q _. unfold bit. rewrite nth_xors by lia.
  destruct (nth q z false), (nth q y false), (nth q x false); reflexivity.
Qed.
Lemma dot_comm n z y : dot n z y = dot n y z.
Proof. apply par_ext. intros. apply andb_comm. Qed.
Lemma dot_set1_r n z y q b : length y = n -> q < n -> dot n z (set1 y q b) = xorb (dot n z y) (bit z q && xorb b (bit y q)).
Proof.
  intros Hy Hq. unfold dot.
  rewrite (par_change (fun p => bit z p && bit (set1 y q b) p) (fun p => bit z p && bit y p) q); [|apply seq_NoDup|apply in_seq; lia|].
  - f_equal. unfold bit. rewrite nth_set1_eq by lia. destruct (nth q z false), b, (nth q y false); reflexivity.
  - intros a Ha. unfold bit. rewrite nth_set1_ne by congruence. reflexivity.
Qed.
Lemma dot_set1_l n z y q b : length z = n -> q < n -> dot n (set1 z q b) y = xorb (dot n z y) (bit y q && xorb b (bit z q)).
Proof. intros. rewrite dot_comm, dot_set1_r, (dot_comm n y) by auto. reflexivity. Qed.
Lemma dot_repeat n z : dot n z (repeat false n) = false.
Proof.
  unfold dot. rewrite (par_ext _ (fun _ => false)).
  - induction (seq 0 n) as [|a l IH]; [reflexivity|]. cbn [map par fold_right]. fold (par (map (fun _ : nat => false) l)). rewrite IH. reflexivity.
  - intros q _. unfold bit. rewrite nth_repeat. apply andb_false_r.
Qed.

Section Pad.
Context {F : Type} {HF : Fld F}.
Add Field FldFieldP : fth.
Variable gmat : pystr -> list Q -> bits -> bits -> F.
Notation same_action := (same_action gmat).
Notation op_of := (op_of gmat).
Variables r i : F.
Hypothesis Hstd : std_gates gmat r i.
Local Open Scope fld_scope.
Notation ops_of l := (map op_of (gates l)).
Notation sgn := (sgn (F:=F)).

Definition pauli (n : nat) (z x : bits) (psi : amp F) : amp F := fun y => sgn (dot n z y) * psi (xors y x).

Definition flip1 (x : bits) (q : nat) (w : bits) : bits := if bit x q then set1 w q (negb (nth q w false)) else w.
Definition flips (x : bits) (qs : list nat) (y : bits) : bits := fold_right (flip1 x) y qs.
Lemma length_flips x qs y : length (flips x qs y) = length y.
Proof. induction qs as [|q qs IH]; cbn; auto. unfold flip1. destruct (bit x q); [rewrite length_set1|]; exact IH. Qed.
Lemma nth_flips x qs y j : NoDup qs -> (forall q, In q qs -> q < length y)%nat ->
  nth j (flips x qs y) false = if mem j qs then xorb (nth j y false) (bit x j) else nth j y false.
Proof.
  intros Hd Hq. induction qs as [|q qs IH]; [reflexivity|]. apply NoDup_cons_iff in Hd. destruct Hd as [Hn Hd].
  assert (IH' := IH Hd (fun q' H => Hq q' (or_intror H))). clear IH. cbn [flips fold_right]. fold (flips x qs y).
  assert (Lq : (q < length (flips x qs y))%nat) by (rewrite length_flips; apply Hq; left; reflexivity).
  destruct (Nat.eq_dec j q) as [->|Hne].
  - assert (M : mem q (q :: qs) = true) by (apply mem_In; left; reflexivity). rewrite M.
    assert (M' : mem q qs = false) by (apply mem_not_In, Hn). rewrite M' in IH'. unfold flip1. destruct (bit x q).
    + rewrite nth_set1_eq by exact Lq. rewrite IH'. destruct (nth q y false); reflexivity.
    + rewrite IH'. destruct (nth q y false); reflexivity.
  - assert (M : mem j (q :: qs) = mem j qs).
    { destruct (mem j qs) eqn:E; [apply mem_In; right; apply mem_In; exact E|]. apply mem_not_In. apply mem_not_In in E. intros [H|H]; [congruence|contradiction]. }
    rewrite M. unfold flip1. destruct (bit x q); [rewrite nth_set1_ne by congruence|]; exact IH'.
Qed.
Lemma flips_all n x y : length y = n -> length x = n -> flips x (seq 0 n) y = xors y x.
Proof.
  intros Hy Hx. apply bits_ext; [rewrite length_flips, length_xors; lia|]. intros j Hj. rewrite length_flips in Hj.
  rewrite nth_flips; [|apply seq_NoDup|intros q Hq; apply in_seq in Hq; lia]. rewrite nth_xors by lia.
  assert (M : mem j (seq 0 n) = true) by (apply mem_In, in_seq; lia). rewrite M. reflexivity.
Qed.

(** One qubit. *)
Lemma run_xz1 z x q psi w : run (ops_of ((if bit x q then [x_gate q] else []) ++ (if bit z q then [z_gate q] else []))) psi w =
  sgn (bit z q && nth q w false) * psi (flip1 x q w).
Proof.
  unfold flip1. destruct (bit x q), (bit z q); cbn [app gates flat_map x_gate z_gate gate1 map run];
  rewrite ?(apply_z gmat r i Hstd q); change {| gname := str "x"; gparams := []; gqubits := [q] |} with (gq "x" [q]);
  change {| gname := str "z"; gparams := []; gqubits := [q] |} with (gq "z" [q]);
  rewrite ?(apply_z gmat r i Hstd q), ?(apply_x gmat r i Hstd q); cbn [andb StdGates.sgn]; try ring; reflexivity.
Qed.
Lemma run_zx1 z x q psi w : (q < length w)%nat -> run (ops_of ((if bit z q then [z_gate q] else []) ++ (if bit x q then [x_gate q] else []))) psi w =
  sgn (bit z q && xorb (nth q w false) (bit x q)) * psi (flip1 x q w).
Proof.
  intros Hq. unfold flip1. destruct (bit x q), (bit z q); cbn [app gates flat_map x_gate z_gate gate1 map run];
  change {| gname := str "x"; gparams := []; gqubits := [q] |} with (gq "x" [q]);
  change {| gname := str "z"; gparams := []; gqubits := [q] |} with (gq "z" [q]);
  rewrite ?(apply_x gmat r i Hstd q), ?(apply_z gmat r i Hstd q), ?nth_set1_eq by exact Hq; rewrite ?xorb_false_r, ?xorb_true_r; cbn [andb StdGates.sgn]; try ring; reflexivity.
Qed.

Lemma run_xz_qs z x qs psi : NoDup qs -> forall y, (forall q, In q qs -> q < length y)%nat ->
  run (ops_of (flat_map (fun q => (if bit x q then [x_gate q] else []) ++ (if bit z q then [z_gate q] else [])) qs)) psi y =
  sgn (par (map (fun q => bit z q && bit y q) qs)) * psi (flips x qs y).
Proof.
  revert psi; induction qs as [|q qs IH]; intros psi Hd y Hq; [cbn; ring|]. apply NoDup_cons_iff in Hd. destruct Hd as [Hn Hd].
  cbn [flat_map]. rewrite gates_app, map_app, run_app. rewrite IH; [|exact Hd|intros q' Hq'; apply Hq; right; exact Hq'].
  rewrite run_xz1. rewrite nth_flips; [|exact Hd|intros q' Hq'; apply Hq; right; exact Hq'].
  assert (M' : mem q qs = false) by (apply mem_not_In, Hn). rewrite M'. cbn [map par fold_right flips]. rewrite sgn_xor. change (nth q y false) with (bit y q). unfold flips, par. ring.
Qed.
Lemma run_zx_qs z x qs psi : NoDup qs -> forall y, (forall q, In q qs -> q < length y)%nat ->
  run (ops_of (flat_map (fun q => (if bit z q then [z_gate q] else []) ++ (if bit x q then [x_gate q] else [])) qs)) psi y =
  sgn (par (map (fun q => bit z q && xorb (bit y q) (bit x q)) qs)) * psi (flips x qs y).
Proof.
  revert psi; induction qs as [|q qs IH]; intros psi Hd y Hq; [cbn; ring|]. apply NoDup_cons_iff in Hd. destruct Hd as [Hn Hd].
  cbn [flat_map]. rewrite gates_app, map_app, run_app. rewrite IH; [|exact Hd|intros q' Hq'; apply Hq; right; exact Hq'].
  rewrite run_zx1; [|rewrite length_flips; apply Hq; left; reflexivity]. rewrite nth_flips; [|exact Hd|intros q' Hq'; apply Hq; right; exact Hq'].
  assert (M' : mem q qs = false) by (apply mem_not_In, Hn). rewrite M'. cbn [map par fold_right flips]. rewrite sgn_xor. unfold flips, par, bit. ring.
Qed.

Lemma run_xz n z x psi y : length x = n -> length y = n -> run (ops_of (xz_gates n z x)) psi y = pauli n z x psi y.
Proof.
  intros Hx Hy. unfold xz_gates. rewrite run_xz_qs; [|apply seq_NoDup|intros q Hq; apply in_seq in Hq; lia].
  rewrite (flips_all n) by auto. reflexivity.
Qed.
Lemma run_zx n z x psi y : length x = n -> length y = n -> run (ops_of (zx_gates n z x)) psi y = sgn (dot n z x) * pauli n z x psi y.
Proof.
  intros Hx Hy. unfold zx_gates. rewrite run_zx_qs; [|apply seq_NoDup|intros q Hq; apply in_seq in Hq; lia].
  rewrite (flips_all n) by auto. unfold pauli.
  replace (par (map (fun q => bit z q && xorb (bit y q) (bit x q)) (seq 0 n))) with (dot n z (xors y x)).
  - rewrite dot_xors by auto. rewrite sgn_xor. ring.
  - apply par_ext. intros q _. unfold bit at 2. rewrite nth_xors by lia. reflexivity.
Qed.

Lemma zs_as_xz n z : zs_gates n z = xz_gates n z (repeat false n).
Proof.
  unfold zs_gates, xz_gates. induction (seq 0 n) as [|q l IH]; [reflexivity|]. cbn [flat_map]. rewrite IH. f_equal.
  unfold bit at 2. rewrite nth_repeat. reflexivity.
Qed.
Lemma run_zs_ground n z : eqa n (run (ops_of (zs_gates n z)) (ground n)) (ground n).
Proof.
  intros y Hy. rewrite zs_as_xz, run_xz by (rewrite ?repeat_length; auto). unfold pauli, ground.
  assert (E : xors y (repeat false n) = y).
  { apply bits_ext; [rewrite length_xors, repeat_length; lia|]. intros j _. rewrite nth_xors by (rewrite repeat_length; exact Hy). rewrite nth_repeat. apply xorb_false_r. }
  rewrite E. destruct (eqb_spec y (repeat false n)) as [->|_]; [|ring]. rewrite dot_repeat. cbn. ring.
Qed.

(** Moving Paulis through the two-qubit gates. *)
Definition two_ok (g2 : pystr) (n : nat) (j : cinstr) : Prop :=
  exists c t, j = CGate {| gname := g2; gparams := []; gqubits := [c; t] |} /\ (c < n /\ t < n /\ c <> t)%nat.

Lemma pauli_step_ok g2 n j z x z' x' : two_ok g2 n j -> length z = n -> length x = n -> pauli_step g2 (z, x) j = Ok (z', x') ->
  length z' = n /\ length x' = n /\ exists b, forall psi, eqa n (run (ops_of [j]) (pauli n z x psi)) (fun y => sgn b * pauli n z' x' (run (ops_of [j]) psi) y).
Proof.
  intros (c & t & -> & Hc & Ht & Hct) Hz Hx E. unfold pauli_step in E. cbn [instr_qubits gqubits index_e nth_error bind] in E.
  destruct (eqb_spec g2 (str "cx")) as [->|_].
  - injection E as <- <-. rewrite !length_set1. split; [exact Hz|split; [exact Hx|]]. exists false. intros psi y Hy.
    cbn [gates flat_map app map run]. change {| gname := str "cx"; gparams := []; gqubits := [c; t] |} with (gq "cx" [c; t]).
    rewrite (apply_cx gmat r i Hstd) by exact Hct. unfold pauli. rewrite (apply_cx gmat r i Hstd) by exact Hct.
    rewrite dot_set1_r by auto. rewrite dot_set1_l by auto. cbn [StdGates.sgn].
    assert (E1 : xorb (dot n z y) (bit z t && xorb (xorb (nth t y false) (nth c y false)) (bit y t)) =
                 xorb (dot n z y) (bit y c && xorb (xorb (bit z c) (bit z t)) (bit z c))).
    { unfold bit. destruct (nth t z false), (nth t y false), (nth c y false), (nth c z false), (dot n z y); reflexivity. }
    rewrite E1. match goal with |- _ * psi ?a = 1 * (_ * psi ?b) => replace b with a; [ring|] end.
    apply bits_ext; [rewrite !length_xors, !length_set1, length_xors, !length_set1; lia|]. intros k Hk.
    rewrite length_xors, length_set1, Hy, Hx, Nat.min_id in Hk.
    rewrite nth_xors by (rewrite length_set1; lia). destruct (Nat.eq_dec k t) as [->|Hkt].
    + rewrite nth_set1_eq by lia. rewrite nth_set1_eq by (rewrite length_xors, length_set1; lia).
      rewrite !nth_xors by (rewrite length_set1; lia). rewrite nth_set1_eq by lia. rewrite nth_set1_ne by congruence. unfold bit.
      destruct (nth t y false), (nth c y false), (nth t x false), (nth c x false); reflexivity.
    + rewrite !nth_set1_ne by congruence. rewrite nth_xors by (rewrite length_set1; lia). rewrite nth_set1_ne by congruence. reflexivity.
  - destruct (eqb_spec g2 (str "cz")) as [->|_]; [|discriminate]. injection E as <- <-. rewrite !length_set1. split; [exact Hz|split; [exact Hx|]].
    exists (bit x c && bit x t). intros psi y Hy.
    cbn [gates flat_map app map run]. change {| gname := str "cz"; gparams := []; gqubits := [c; t] |} with (gq "cz" [c; t]).
    rewrite (apply_cz gmat r i Hstd) by exact Hct. unfold pauli. rewrite (apply_cz gmat r i Hstd) by exact Hct.
    rewrite dot_set1_l by (rewrite ?length_set1; auto). rewrite dot_set1_l by auto. rewrite !nth_xors by lia.
    rewrite !fmul_assoc. rewrite <- !sgn_xor. do 2 f_equal. unfold bit. rewrite nth_set1_ne by congruence.
    destruct (nth c x false), (nth t x false), (nth c y false), (nth t y false), (nth c z false), (nth t z false), (dot n z y); reflexivity.
Qed.

Lemma pauli_ext n z x psi phi : length x = n -> eqa n psi phi -> eqa n (pauli n z x psi) (pauli n z x phi).
Proof. intros Hx H y Hy. unfold pauli. rewrite (H (xors y x)); [reflexivity|]. rewrite length_xors. lia. Qed.

Lemma pauli_layer g2 n l : Forall (two_ok g2 n) l -> forall z x z' x', length z = n -> length x = n ->
  foldM (pauli_step g2) l (z, x) = Ok (z', x') ->
  length z' = n /\ length x' = n /\ exists b, forall psi, eqa n (run (ops_of l) (pauli n z x psi)) (fun y => sgn b * pauli n z' x' (run (ops_of l) psi) y).
Proof.
  induction 1 as [|j l Hj Hl IH]; intros z x z' x' Hz Hx E.
  - injection E as <- <-. split; [exact Hz|split; [exact Hx|]]. exists false. intros psi y Hy. cbn. ring.
  - cbn [foldM] in E. inv_bind E. destruct v as [z1 x1]. destruct (pauli_step_ok _ _ _ _ _ _ _ Hj Hz Hx E0) as (Hz1 & Hx1 & b1 & H1).
    destruct (IH _ _ _ _ Hz1 Hx1 E) as (Hz' & Hx' & b2 & H2). split; [exact Hz'|split; [exact Hx'|]]. exists (xorb b1 b2). intros psi y Hy.
    change (j :: l) with ([j] ++ l). rewrite gates_app, map_app, !run_app.
    rewrite (run_ext n _ _ _ (H1 psi) y Hy). rewrite (run_scale _ (sgn b1) (pauli n z1 x1 (run (ops_of [j]) psi)) n y Hy). rewrite (H2 _ y Hy). rewrite sgn_xor. ring.
Qed.

(** The Paulis before and after a layer cancel. *)
Lemma pad_cancels g2 n l z x z' x' : Forall (two_ok g2 n) l -> length z = n -> length x = n -> foldM (pauli_step g2) l (z, x) = Ok (z', x') ->
  same_action n (gates (zx_gates n z x ++ l ++ xz_gates n z' x')) (gates l).
Proof.
  intros Hl Hz Hx E. destruct (pauli_layer g2 n l Hl _ _ _ _ Hz Hx E) as (Hz' & Hx' & b & H).
  exists (sgn (dot n z x) * sgn b * sgn (dot n z' x')). split.
  { apply fmul_neq_0; [apply fmul_neq_0|]; apply sgn_neq0. }
  intros psi y Hy. rewrite !gates_app, !map_app, !run_app. rewrite run_xz by auto.
  assert (E1 : eqa n (run (ops_of (zx_gates n z x)) psi) (fun y => sgn (dot n z x) * pauli n z x psi y)) by (intros w Hw; apply run_zx; auto).
  assert (E2 : eqa n (run (ops_of l) (run (ops_of (zx_gates n z x)) psi)) (fun y => sgn (dot n z x) * sgn b * pauli n z' x' (run (ops_of l) psi) y)).
  { intros w Hw. rewrite (run_ext n _ _ _ E1 w Hw). rewrite (run_scale _ (sgn (dot n z x)) (pauli n z x psi) n w Hw). rewrite (H psi w Hw). ring. }
  rewrite (pauli_ext n z' x' _ _ Hx' E2 y Hy). unfold pauli. rewrite xors_xors by lia. rewrite dot_xors by lia. rewrite sgn_xor.
  transitivity (sgn (dot n z' y) * sgn (dot n z' y) * (sgn (dot n z x) * sgn b * sgn (dot n z' x') * run (ops_of l) psi y)); [ring|]. rewrite sgn_sq. ring.
Qed.

Lemma layer2_ok g2 n l : layer2 g2 n l -> Forall (two_ok g2 n) l.
Proof.
  intros [H Hd]. induction H as [|j l Hj Hl IH]; [constructor|]. destruct Hj as (c & t & -> & Hc & Ht). cbn in Hd.
  apply NoDup_cons_iff in Hd. destruct Hd as [Hn Hd]. apply NoDup_cons_iff in Hd. destruct Hd as [_ Hd].
  constructor; [|exact (IH Hd)]. exists c, t. repeat split; auto. intros ->. apply Hn. left. reflexivity.
Qed.

Lemma pauli_gates_one n z x : Forall (one_qubit n) (zx_gates n z x) /\ Forall (one_qubit n) (xz_gates n z x) /\ Forall (one_qubit n) (zs_gates n z).
Proof.
  repeat split; apply Forall_forall; intros j Hj; apply in_flat_map in Hj; destruct Hj as [q [Hq Hj]]; apply in_seq in Hq;
  destruct (bit z q), (bit x q); cbn in Hj; repeat (destruct Hj as [<-|Hj]; [exists q; split; [reflexivity|lia]|]); try contradiction; destruct Hj.
Qed.

Section Main.
Variable tp : list cinstr -> list cinstr.
Variable n : nat.
Hypothesis Htp : transpiles gmat n tp.

(** The alternating circuit up to (and without) layer [k]. *)
Fixpoint woven_upto (singles twos : list (list cinstr)) : list cinstr :=
  match singles, twos with
  | s :: singles', t :: twos' => s ++ t ++ woven_upto singles' twos'
  | _, _ => []
  end.

Definition no_meas (l : list cinstr) : Prop := measures l = [].
Lemma one_no_meas l : Forall (one_qubit n) l -> no_meas l.
Proof. induction 1 as [|j l Hj Hl IH]; [reflexivity|]. destruct j; cbn in *; auto. contradiction. Qed.
Lemma two_no_meas g2 l : Forall (two_ok g2 n) l -> no_meas l.
Proof. induction 1 as [|j l Hj Hl IH]; [reflexivity|]. destruct Hj as (c & t & -> & _). exact IH. Qed.

Lemma qotp_steps rnd L : forall twos singles k circ temp pos base s',
  (forall j, nth_error (ly_single L) (k + j) = nth_error singles j) ->
  Forall (Forall (one_qubit n)) singles -> Forall (layer2 (ly_gate L) n) twos -> ly_n L = n -> (length twos < length singles)%nat ->
  Forall (one_qubit n) temp -> same_action n (gates (circ ++ temp)) base -> no_meas circ ->
  foldM (qotp_step tp rnd L) (combine (seq k (length twos)) twos) (circ, temp, pos) = Ok s' ->
  let '(circ', temp', pos') := s' in
  Forall (one_qubit n) temp' /\ no_meas circ' /\ same_action n (gates (circ' ++ temp')) (base ++ gates (woven_upto singles twos)) /\
  (exists m, pos' = pos + m)%nat.
Proof.
  induction twos as [|two twos IH]; intros singles k circ temp pos base s' Hs H1 H2 Hn Hlen Ht Ha Hm E.
  - cbn in E. injection E as <-. destruct singles; [cbn in Hlen; lia|]. cbn [woven_upto gates flat_map]. rewrite app_nil_r.
    split; [exact Ht|split; [exact Hm|split; [exact Ha|exists 0%nat; lia]]].
  - cbn [length seq combine foldM] in E. inv_bind E. destruct singles as [|single singles]; [cbn in Hlen; lia|].
    destruct v as [[circ1 temp1] pos1]. cbn [qotp_step fst snd] in E0. inv_bind E0.
    assert (Ev : v = single). { unfold index_e in E1. specialize (Hs 0%nat). rewrite Nat.add_0_r in Hs. cbn in Hs. rewrite Hs in E1. congruence. } subst v.
    inv_bind E0. destruct v as [z' x']. cbn [fst snd] in E0. injection E0 as <- <- <-. rewrite Hn in *.
    apply Forall_cons_iff in H1. destruct H1 as [Hs1 H1]. apply Forall_cons_iff in H2. destruct H2 as [Ht1 H2].
    assert (Htemp : Forall (one_qubit n) (temp ++ single ++ zx_gates n (draw rnd pos n) (draw rnd (pos + n) n))).
    { apply Forall_app; split; [exact Ht|]. apply Forall_app; split; [exact Hs1|]. apply (pauli_gates_one n _ (draw rnd (pos + n) n)). }
    specialize (IH singles (S k) (circ ++ tp (temp ++ single ++ zx_gates n (draw rnd pos n) (draw rnd (pos + n) n)) ++ CBarrier (seq 0 n) :: two ++ [CBarrier (seq 0 n)])
      (xz_gates n z' x') (pos + (n + (n + 0)))%nat (base ++ gates (single ++ two)) s').
    destruct s' as [[c' t'] p']. cbv beta iota zeta.
    assert (G : Forall (one_qubit n) t' /\ no_meas c' /\ same_action n (gates (c' ++ t')) ((base ++ gates (single ++ two)) ++ gates (woven_upto singles twos)) /\ exists m, (p' = pos + (n + (n + 0)) + m)%nat).
    { apply IH; auto.
      - intros j. pose proof (Hs (S j)) as Hj. cbn [nth_error] in Hj. rewrite <- Hj. f_equal. lia.
      - cbn in Hlen. lia.
      - apply (pauli_gates_one n z' x').
      - eapply same_trans; [|apply same_post, Ha]. rewrite !gates_app, <- !app_assoc. apply same_pre.
        cbn [gates flat_map app]. fold (gates (two ++ [CBarrier (seq 0 n)])). rewrite gates_app. cbn [gates flat_map app]. rewrite app_nil_r.
        eapply same_trans; [apply same_post, Htp, Htemp|]. rewrite !gates_app, <- !app_assoc. apply same_pre, same_pre.
        pose proof (pad_cancels (ly_gate L) n two _ _ _ _ (layer2_ok _ _ _ Ht1) (length_draw rnd pos n) (length_draw rnd (pos + n) n) E2) as Hp.
        rewrite !gates_app in Hp. exact Hp.
      - unfold no_meas in *. rewrite !meas_app. change (CBarrier (seq 0 n) :: two ++ [CBarrier (seq 0 n)]) with ([CBarrier (seq 0 n)] ++ two ++ [CBarrier (seq 0 n)]).
        rewrite !meas_app, Hm. rewrite (one_no_meas _ (proj1 (Htp _ Htemp))). rewrite (two_no_meas _ _ (layer2_ok _ _ _ Ht1)). reflexivity. }
    destruct G as (G1 & G2 & G3 & m & G4). split; [exact G1|split; [exact G2|split]].
    + cbn [woven_upto]. rewrite !gates_app in *. rewrite <- !app_assoc in *. exact G3.
    + exists (n + (n + 0) + m)%nat. lia.
Qed.

Lemma woven_split singles : forall twos, length singles = S (length twos) -> woven singles twos = woven_upto singles twos ++ last singles [].
Proof.
  induction singles as [|s singles IH]; intros twos H; [discriminate|]. destruct twos as [|t twos].
  - destruct singles; [reflexivity|discriminate].
  - cbn [woven woven_upto]. injection H as H. rewrite IH by exact H. rewrite <- !app_assoc. do 2 f_equal. f_equal.
    destruct singles; [discriminate|reflexivity].
Qed.

(** The layers handed to [QOTP_fromlayers]. *)
Record good_layers (L : layers) : Prop := {
  gl_n : ly_n L = n;
  gl_single : Forall (Forall (one_qubit n)) (ly_single L);
  gl_two : Forall (layer2 (ly_gate L) n) (ly_two L);
  gl_len : length (ly_single L) = S (length (ly_two L))
}.

Theorem qotp_action rnd pos L circ postp pos' : good_layers L -> qotp_fromlayers tp rnd pos L = Ok (circ, postp, pos') ->
  exists zs0 zs xs, length xs = n /\ postp = rev xs /\ measures circ = measures (ly_meas L) /\
    same_action n (gates circ) (gates (zs_gates n zs0 ++ woven (ly_single L) (ly_two L) ++ zx_gates n zs xs ++ ly_meas L)).
Proof.
  intros [Gn Gs Gt Gl] E. unfold qotp_fromlayers in E. inv_bind E. destruct v as [[c1 t1] p1]. inv_bind E. rewrite Gn in *. injection E as <- <- _.
  exists (draw rnd pos n), (draw rnd p1 n), (draw rnd (p1 + n) n).
  pose proof (qotp_steps rnd L (ly_two L) (ly_single L) 0 [] (zs_gates n (draw rnd pos n)) (pos + n)%nat (gates (zs_gates n (draw rnd pos n))) (c1, t1, p1)) as S.
  destruct S as (S1 & S2 & S3 & _); auto; try lia.
  - apply (pauli_gates_one n _ []).
  - apply same_refl.
  - reflexivity.
  - assert (Ev : v = last (ly_single L) []). { destruct (ly_single L); [discriminate|]. injection E1 as <-. reflexivity. } subst v.
    assert (Hl : Forall (one_qubit n) (last (ly_single L) [])).
    { destruct (ly_single L) as [|s l] eqn:El; [discriminate Gl|]. rewrite Forall_forall in Gs. apply Gs.
      rewrite (app_removelast_last [] (l := s :: l)) at 2 by discriminate. apply in_app_iff. right. left. reflexivity. }
    assert (Ht : Forall (one_qubit n) (t1 ++ last (ly_single L) [] ++ zx_gates n (draw rnd p1 n) (draw rnd (p1 + n) n))).
    { apply Forall_app; split; [exact S1|]. apply Forall_app; split; [exact Hl|]. apply (pauli_gates_one n _ (draw rnd (p1 + n) n)). }
    split; [apply length_draw|split; [reflexivity|split]].
    + rewrite !meas_app, S2. rewrite (one_no_meas _ (proj1 (Htp _ Ht))). reflexivity.
    + rewrite (woven_split _ _ Gl). rewrite !gates_app in *. rewrite <- !app_assoc in *.
      eapply same_trans; [apply same_pre, same_post, Htp, Ht|]. rewrite !gates_app, <- !app_assoc. rewrite !(app_assoc (gates c1)).
      rewrite (app_assoc (gates (zs_gates _ _))). apply same_app; [exact S3 | apply same_refl].
Qed.
End Main.

(** ** Final amplitudes of the padded circuit *)
Lemma final_pad n zs0 zs xs body ops circ : length xs = n -> no_meas body ->
  same_action n (gates body) (gates ops) ->
  same_action n (gates circ) (gates (zs_gates n zs0 ++ body ++ zx_gates n zs xs)) ->
  exists k, k <> 0 /\ forall y, length y = n -> exists b, final gmat n circ y = k * (sgn b * final gmat n ops (xors y xs)).
Proof.
  intros Hx Hb [k1 [Hk1 H1]] [k2 [Hk2 H2]]. exists (k2 * k1). split; [apply fmul_neq_0; auto|]. intros y Hy.
  exists (xorb (dot n zs xs) (dot n zs y)). unfold final. rewrite H2 by exact Hy. rewrite !gates_app, !map_app, !run_app.
  rewrite run_zx by auto. unfold pauli. rewrite (run_ext n _ _ (ground n)); [|apply run_zs_ground|rewrite length_xors; lia].
  rewrite H1 by (rewrite length_xors; lia). rewrite sgn_xor. ring.
Qed.
End Pad.
