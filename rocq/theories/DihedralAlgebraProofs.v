(** One- and two-qubit synthesis, adjoint, conjugate, transpose, tensor product. *)
From Coq Require Import QArith Setoid Morphisms Permutation.
From Verif Require Import Base DihedralModel DihedralSpec DihedralPolyProofs DihedralValueProofs DihedralGroupProofs DihedralGateProofs DihedralDecompProofs.
Open Scope nat_scope.

(** ** A decision procedure on small elements *)
Definition pt (l : list bool) : point := fun j => nth j l false.
Fixpoint all_bits (n : nat) : list (list bool) :=
  match n with 0 => [[]] | S m => map (cons false) (all_bits m) ++ map (cons true) (all_bits m) end.
Lemma all_bits_In n l : length l = n -> In l (all_bits n).
Proof.
  revert n. induction l as [|b l IH]; intros [|n] H; try discriminate; [left; reflexivity|]. cbn [all_bits]. apply in_app_iff. injection H as H.
  destruct b; [right | left]; apply in_map, IH, H.
Qed.
Lemma pt_same n x : same n x (pt (map x (seq 0 n))).
Proof. intros i Hi. unfold pt. rewrite nth_map_seq by exact Hi. reflexivity. Qed.

Fixpoint run (c : list ginstr) (x : point) : option (Z * point) :=
  match c with
  | [] => Some (0%Z, x)
  | g :: c' => match gate_action g x with
               | Some (k1, x1) => match run c' x1 with Some (k2, y) => Some ((k1 + k2)%Z, y) | None => None end
               | None => None
               end
  end.
Lemma run_runs c x k y : run c x = Some (k, y) -> runs c x k y.
Proof.
  revert x k. induction c as [|g c IH]; intros x k H; cbn in H.
  - injection H as <- <-. split; reflexivity.
  - destruct (gate_action g x) as [[k1 x1]|] eqn:E; [|discriminate]. destruct (run c x1) as [[k2 z]|] eqn:E2; [|discriminate]. injection H as <- <-.
    exists k1, x1, k2. auto.
Qed.

Definition plainb (n : nat) (g : ginstr) : bool :=
  forallb (fun q => q <? n) (gqubits g) && (match gate_action g (fun _ => false) with Some _ => true | None => false end) && negb (eqb (gname g) (str "y")).
Lemma plainb_ok n g : plainb n g = true -> plain_gate n g.
Proof.
  unfold plainb. rewrite !andb_true_iff, negb_true_iff. intros [[Hq Hg] Hy]. split; [split|].
  - rewrite forallb_forall in Hq. intros q Hin. apply Nat.ltb_lt, Hq, Hin.
  - intros E. rewrite E in Hg. discriminate.
  - intros E. rewrite E in Hy. discriminate.
Qed.

Definition gap (c : list ginstr) (e : cdi) (x : point) : option Z :=
  match run c x with Some (k, _) => Some ((phase_at e x - k) mod 8)%Z | None => None end.
Definition implb (n : nat) (c : list ginstr) (e : cdi) : bool :=
  match gap c e (pt []) with
  | None => false
  | Some g =>
      forallb (plainb n) c &&
      forallb (fun l => match run c (pt l) with
                        | Some (k, y) => (((phase_at e (pt l) - k) mod 8) =? g)%Z && forallb (fun i => Bool.eqb (y i) (image e (pt l) i)) (seq 0 n)
                        | None => false end) (all_bits n)
  end.

Lemma implb_ok n c e : wf_poly n (dpoly e) -> dn e = n -> implb n c e = true -> Forall (plain_gate n) c /\ implements n c e.
Proof.
  intros Wp Hn H. unfold implb in H. destruct (gap c e (pt [])) as [g|]; [|discriminate]. apply andb_true_iff in H as [Hp Hl].
  rewrite forallb_forall in Hp, Hl. assert (P : Forall (plain_gate n) c) by (apply Forall_forall; intros h Hh; apply plainb_ok, Hp, Hh).
  split; [exact P|]. exists g. intros x. set (l := map x (seq 0 n)).
  specialize (Hl l (all_bits_In n l ltac:(unfold l; rewrite map_length, seq_length; reflexivity))).
  destruct (run c (pt l)) as [[k y]|] eqn:R; [|discriminate]. apply andb_true_iff in Hl as [Hk Hy]. apply run_runs in R. apply Z.eqb_eq in Hk.
  assert (Sx : same n (pt l) x) by (intros i Hi; symmetry; apply (pt_same n x i Hi)).
  destruct (runs_same n c) with (x := pt l) (x' := x) (k := k) (y := y) as (y' & R' & S'); [|exact Sx | exact R|].
  { intros h Hh. rewrite Forall_forall in P. apply P, Hh. }
  exists k, y'. split; [exact R'|]. split.
  - unfold phase_at in *. rewrite (value_ext n _ x (pt l) Wp (fun i Hi => eq_sym (Sx i Hi))). rewrite <- Hk, eq8_mod. apply eq8_k with 0%Z. ring.
  - intros i Hi. rewrite <- (S' i Hi). rewrite forallb_forall in Hy. specialize (Hy i ltac:(apply in_seq; lia)). apply Bool.eqb_prop in Hy. rewrite Hy.
    unfold image. rewrite Hn, (parity_ext n _ (pt l) x Sx). reflexivity.
Qed.

(** Two different points with the same image. *)
Definition collide (n : nat) (e : cdi) : bool :=
  existsb (fun l => existsb (fun l' => negb (eqb l l') && forallb (fun i => Bool.eqb (image e (pt l) i) (image e (pt l') i)) (seq 0 n)) (all_bits n)) (all_bits n).
Lemma all_bits_length n l : In l (all_bits n) -> length l = n.
Proof.
  revert l. induction n as [|n IH]; intros l H; [destruct H as [<-|[]]; reflexivity|]. cbn [all_bits] in H. apply in_app_iff in H as [H|H];
    apply in_map_iff in H as (l' & <- & H); cbn; rewrite (IH _ H); reflexivity.
Qed.
Lemma collide_ok n e : collide n e = true -> ~ (forall x y, same n (image e x) (image e y) -> same n x y).
Proof.
  intros H Hinj. apply existsb_exists in H as (l & Hl & H). apply existsb_exists in H as (l' & Hl' & H). apply andb_true_iff in H as [Hne H].
  rewrite forallb_forall in H. apply negb_true_iff in Hne. destruct (eqb_spec l l') as [|Hd]; [discriminate|]. apply Hd.
  apply (nth_ext _ _ false false); [rewrite (all_bits_length n l Hl), (all_bits_length n l' Hl'); reflexivity|]. rewrite (all_bits_length n l Hl). intros i Hi.
  apply (Hinj (pt l) (pt l')); [|exact Hi]. intros j Hj. apply Bool.eqb_prop, H, in_seq. lia.
Qed.

(** All elements on one and two qubits. *)
Definition elem1 (a : Z) (l s : bool) : cdi :=
  {| dn := 1; dpoly := {| pn := 1; w0 := 0; w1 := [a]; w2 := []; w3 := [] |}; dlin := [[l]]; dshift := [s] |}.
Definition elem2 (a b c : Z) (x y z w s s' : bool) : cdi :=
  {| dn := 2; dpoly := {| pn := 2; w0 := 0; w1 := [a; b]; w2 := [c]; w3 := [] |}; dlin := [[x; y]; [z; w]]; dshift := [s; s'] |}.
Definition z8 : list Z := [0; 1; 2; 3; 4; 5; 6; 7]%Z.
Definition bb : list bool := [false; true].
Definition check1 : bool := forallb (fun a => forallb (fun l => forallb (fun s =>
  match decompose2 (elem1 a l s) with Ok c => implb 1 c (elem1 a l s) | Err _ => collide 1 (elem1 a l s) end) bb) bb) z8.
Definition check2 : bool := forallb (fun a => forallb (fun b => forallb (fun c => forallb (fun x => forallb (fun y => forallb (fun z => forallb (fun w => forallb (fun s => forallb (fun s' =>
  let e := elem2 a b c x y z w s s' in
  collide 2 e || match decompose2 e with Ok c => implb 2 c e | Err _ => false end) bb) bb) bb) bb) bb) bb) [0; 2; 4; 6]%Z) z8) z8.
Lemma check1_true : check1 = true. Proof. vm_compute. reflexivity. Qed.
Lemma check2_true : check2 = true. Proof. vm_compute. reflexivity. Qed.

Lemma In_z8 a : reduced a -> In a z8.
Proof. unfold reduced, z8. intros H. cbn. lia. Qed.
Lemma In_bb b : In b bb.
Proof. destruct b; cbn; auto. Qed.

Lemma decompose2_1 e : wf_cdi 1 e -> w0 (dpoly e) = 0%Z -> exists c, decompose2 e = Ok c /\ Forall (plain_gate 1) c /\ implements 1 c e.
Proof.
  intros W Z0. pose proof W as [Hn _ Wp _ Hl Hr Hs Hinj]. pose proof Wp as [P1 P2 P3 P4 _ R1 _ _].
  destruct e as [n p lin sh]. cbn in Hn, Hl, Hr, Hs. destruct p as [m q0 q1 q2 q3]. cbn in P1, P2, P3, P4, Z0, R1. subst n m q0.
  destruct q1 as [|a [|]]; try discriminate. destruct q2; try discriminate. destruct q3; try discriminate.
  destruct lin as [|r [|]]; try discriminate. inversion Hr as [|? ? Hr1 _]; subst. destruct r as [|l [|]]; try discriminate. destruct sh as [|s [|]]; try discriminate.
  inversion R1 as [|? ? Ra _]; subst. pose proof check1_true as C. unfold check1 in C.
  rewrite forallb_forall in C. specialize (C a (In_z8 a Ra)). rewrite forallb_forall in C. specialize (C l (In_bb l)). rewrite forallb_forall in C. specialize (C s (In_bb s)).
  change (exists c, decompose2 (elem1 a l s) = Ok c /\ Forall (plain_gate 1) c /\ implements 1 c (elem1 a l s)).
  destruct (decompose2 (elem1 a l s)) as [c|].
  - exists c. split; [reflexivity|]. apply implb_ok; [exact Wp | reflexivity | exact C].
  - exfalso. apply (collide_ok 1 _ C). exact Hinj.
Qed.

Lemma decompose2_2 e : wf_cdi 2 e -> w0 (dpoly e) = 0%Z -> exists c, decompose2 e = Ok c /\ Forall (plain_gate 2) c /\ implements 2 c e.
Proof.
  intros W Z0. pose proof W as [Hn _ Wp Sp Hl Hr Hs Hinj]. pose proof Wp as [P1 P2 P3 P4 _ R1 R2 _]. destruct Sp as [Sp _].
  destruct e as [n p lin sh]. cbn in Hn, Hl, Hr, Hs. destruct p as [m q0 q1 q2 q3]. cbn in P1, P2, P3, P4, Z0, R1, R2, Sp. subst n m q0.
  destruct q1 as [|a [|b [|]]]; try discriminate. destruct q2 as [|c [|]]; try discriminate. destruct q3; try discriminate.
  destruct lin as [|r [|r' [|]]]; try discriminate. inversion Hr as [|? ? Hr1 Hr']; subst. inversion Hr' as [|? ? Hr2 _]; subst.
  destruct r as [|x [|y [|]]]; try discriminate. destruct r' as [|z [|w [|]]]; try discriminate. destruct sh as [|s [|s' [|]]]; try discriminate.
  inversion R1 as [|? ? Ra R1']; subst. inversion R1' as [|? ? Rb _]; subst. inversion R2 as [|? ? Rc _]; subst. inversion Sp as [|? ? Sc _]; subst.
  assert (Ic : In c [0; 2; 4; 6]%Z) by (unfold reduced in Rc; cbn; lia).
  pose proof check2_true as C. unfold check2 in C.
  rewrite forallb_forall in C. specialize (C a (In_z8 a Ra)). rewrite forallb_forall in C. specialize (C b (In_z8 b Rb)).
  rewrite forallb_forall in C. specialize (C c Ic). do 4 (rewrite forallb_forall in C; specialize (C _ (In_bb _))) || idtac.
  rewrite forallb_forall in C; specialize (C x (In_bb x)). rewrite forallb_forall in C; specialize (C y (In_bb y)).
  rewrite forallb_forall in C; specialize (C z (In_bb z)). rewrite forallb_forall in C; specialize (C w (In_bb w)).
  rewrite forallb_forall in C; specialize (C s (In_bb s)). rewrite forallb_forall in C; specialize (C s' (In_bb s')). cbn zeta in C.
  change (exists c', decompose2 (elem2 a b c x y z w s s') = Ok c' /\ Forall (plain_gate 2) c' /\ implements 2 c' (elem2 a b c x y z w s s')).
  apply orb_true_iff in C as [C|C]; [exfalso; apply (collide_ok 2 _ C); exact Hinj|].
  destruct (decompose2 (elem2 a b c x y z w s s')) as [c'|]; [|discriminate].
  exists c'. split; [reflexivity|]. apply implb_ok; [exact Wp | reflexivity | exact C].
Qed.

Section Det.
Variable det_odd : list (list bool) -> bool.
Hypothesis Hdet : decides_invertible det_odd.

Lemma decompose_spec n e : wf_cdi n e -> w0 (dpoly e) = 0%Z -> exists c, decompose det_odd e = Ok c /\ Forall (plain_gate n) c /\ implements n c e.
Proof.
  intros W Z0. unfold decompose. rewrite (wd_n n e W). pose proof (wd_pos n e W) as Hp. destruct (Nat.ltb_spec n 3) as [Hlt|Hge].
  - destruct n as [|[|[|n]]]; try lia; [apply decompose2_1; assumption | apply decompose2_2; assumption].
  - apply decompose_general_spec; assumption.
Qed.

Lemma auto_name_free : ~ In auto_name reserved.
Proof. intros H. cbn in H. repeat destruct H as [H|H]; try discriminate H. exact H. Qed.

Lemma runs_total n c x : (forall g, In g c -> valid_gate n g) -> exists k y, runs c x k y.
Proof.
  revert x. induction c as [|g c IH]; intros x H; [exists 0%Z, x; split; reflexivity|].
  destruct (valid_defined n g x (H g (or_introl eq_refl))) as (k1 & x1 & E). destruct (IH x1 (fun h Hh => H h (or_intror Hh))) as (k2 & y & R).
  exists (k1 + k2)%Z, y. exists k1, x1, k2. auto.
Qed.
Lemma runs_det c : forall x k y k' y', runs c x k y -> runs c x k' y' -> k = k' /\ y = y'.
Proof.
  induction c as [|g c IH]; intros x k y k' y' H H'.
  - destruct H as [-> ->], H' as [-> ->]. auto.
  - destruct H as (k1 & x1 & k2 & E & R & ->), H' as (k1' & x1' & k2' & E' & R' & ->). rewrite E in E'. injection E' as <- <-.
    destruct (IH x1 k2 y k2' y' R R') as [-> ->]. auto.
Qed.

(** What an element implemented by a given circuit does. *)
Lemma implements_run n c e : implements n c e -> exists g, forall x k y, runs c x k y -> eq8 (phase_at e x) (g + k) /\ same n y (image e x).
Proof.
  intros (g & H). exists g. intros x k y R. destruct (H x) as (k' & y' & R' & Hp & Hs). destruct (runs_det c x k y k' y' R R') as [-> ->]. auto.
Qed.

Lemma phase_ext n e x y : wf_cdi n e -> same n x y -> phase_at e x = phase_at e y.
Proof. intros W H. apply (value_ext n), H. apply (wd_poly n e W). Qed.

Lemma adjoint_spec n e : wf_cdi n e -> w0 (dpoly e) = 0%Z -> exists e', adjoint det_odd e = Ok e' /\ wf_cdi n e' /\ w0 (dpoly e') = 0%Z /\
  (forall x, same n (image e' (image e x)) x) /\ exists g, forall x, eq8 (phase_at e' (image e x) + phase_at e x) g.
Proof.
  intros W Z0. unfold adjoint. destruct (decompose_spec n e W Z0) as (c & -> & P & I). cbn [bind]. rewrite (wd_n n e W).
  rewrite Forall_forall in P. assert (V : forall g, In g c -> valid_gate n g) by (intros g Hg; apply P, Hg).
  destruct (from_circuit_spec n auto_name (circ_inverse c) (wd_pos n e W) auto_name_free (circ_inverse_valid n c V)) as (e' & -> & W' & Z' & I').
  exists e'. split; [reflexivity|]. split; [exact W'|]. split; [exact Z'|].
  destruct (implements_run n c e I) as (g & H). destruct (implements_run n _ e' I') as (g' & H').
  assert (X : forall x, same n (image e' (image e x)) x /\ eq8 (phase_at e' (image e x) + phase_at e x) (g + g')).
  { intros x. destruct (runs_total n c x V) as (k & y & R). destruct (H x k y R) as [Hp Hs]. destruct (runs_inv n c V x k y R) as (k' & x' & R' & Hk & Hs').
    destruct (H' y k' x' R') as [Hp' Hs2].
    assert (Sy : same n (image e x) y) by (intros i Hi; symmetry; apply Hs, Hi). split.
    - intros i Hi. rewrite (image_ext n e' _ _ W' Sy). rewrite <- (Hs2 i Hi). apply Hs', Hi.
    - rewrite (phase_ext n e' _ _ W' Sy), Hp', Hp, Hk. apply eq8_k with 0%Z. ring. }
  split; [intros x; apply X|]. exists (g + g')%Z. intros x. apply X.
Qed.

Lemma gate_conj g x k y : gname g <> str "y" -> gate_action g x = Some (k, y) -> exists k', gate_action (gconj g) x = Some (k', y) /\ eq8 k' (- k).
Proof.
  intros Ny. unfold gconj. destruct (eqb (gname g) (str "u1")) eqn:Eu.
  - name_eq Eu. unfold gate_action. cbn [gname gparams gqubits]. rewrite e. change (eqb (str "u1") (str "x")) with false. change (eqb (str "u1") (str "y")) with false.
    change (eqb (str "u1") (str "z")) with false. change (eqb (str "u1") (str "u1")) with true. cbv iota.
    destruct (gqubits g) as [|q [|]]; try discriminate. destruct (gparams g) as [|a [|]]; try discriminate. cbn [map].
    destruct (Z.eqb_spec (Z.pos (Qden a)) 1) as [Ed|]; [|discriminate]. intros H.
    assert (Hk : (Qnum a * bit (x q))%Z = k) by congruence. assert (Hy : x = y) by congruence.
    assert (Ed' : Qden (inject_Z 8 - a) = 1%positive). { cbn. injection Ed as ->. reflexivity. }
    rewrite Ed'. cbn [Z.eqb Pos.eqb]. eexists. split; [rewrite Hy; reflexivity|]. rewrite <- Hk.
    assert (En : Qnum (inject_Z 8 - a) = (8 - Qnum a)%Z). { cbn [Qminus Qplus Qopp inject_Z Qnum Qden]. injection Ed as ->. lia. }
    rewrite En. subst y. apply eq8_k with (bit (x q))%Z. ring.
  - unfold gate_action. destruct (eqb (gname g) (str "x")).
    { destruct (gqubits g) as [|q [|]]; try discriminate. intros H. injection H as <- <-. eexists; split; reflexivity. }
    destruct (eqb (gname g) (str "y")) eqn:Ey; [name_eq Ey; contradiction|].
    destruct (eqb (gname g) (str "z")).
    { destruct (gqubits g) as [|q [|]]; try discriminate. intros H. eexists. split; [exact H|]. injection H as <- _. destruct (x q); reflexivity. }
    rewrite Eu. destruct (eqb (gname g) (str "cx")).
    { destruct (gqubits g) as [|a [|b [|]]]; try discriminate. destruct (a =? b); [discriminate|]. intros H. eexists. split; [exact H|]. injection H as <- _. reflexivity. }
    destruct (eqb (gname g) (str "cz")).
    { destruct (gqubits g) as [|a [|b [|]]]; try discriminate. destruct (a =? b); [discriminate|]. intros H. eexists. split; [exact H|]. injection H as <- _. destruct (x a), (x b); reflexivity. }
    destruct (eqb (gname g) (str "id")); [|discriminate]. intros H. eexists. split; [exact H|]. injection H as <- _. reflexivity.
Qed.

Lemma gconj_valid n g : plain_gate n g -> valid_gate n (gconj g).
Proof.
  intros [V Ny]. destruct (valid_defined n g (fun _ => false) V) as (k & y & E). destruct (gate_conj g _ k y Ny E) as (k' & E' & _). split.
  - replace (gqubits (gconj g)) with (gqubits g) by (unfold gconj; destruct (eqb (gname g) (str "u1")); reflexivity). apply V.
  - rewrite E'. discriminate.
Qed.

Lemma runs_conj n c : Forall (plain_gate n) c -> forall x k y, runs c x k y -> exists k', runs (map gconj c) x k' y /\ eq8 k' (- k).
Proof.
  induction c as [|g c IH]; intros P x k y R.
  - destruct R as [-> ->]. exists 0%Z. split; [split; reflexivity | reflexivity].
  - inversion P as [|? ? Pg Pc]; subst. destruct R as (k1 & x1 & k2 & E & R & ->). destruct (gate_conj g x k1 x1 (proj2 Pg) E) as (k1' & E' & Hk1).
    destruct (IH Pc x1 k2 y R) as (k2' & R' & Hk2). exists (k1' + k2')%Z. split; [exists k1', x1, k2'; auto|]. rewrite Hk1, Hk2. apply eq8_k with 0%Z. ring.
Qed.

Lemma conjugate_spec n e : wf_cdi n e -> w0 (dpoly e) = 0%Z -> exists e', conjugate det_odd e = Ok e' /\ wf_cdi n e' /\ w0 (dpoly e') = 0%Z /\
  (forall x, same n (image e' x) (image e x)) /\ exists g, forall x, eq8 (phase_at e' x) (g - phase_at e x).
Proof.
  intros W Z0. unfold conjugate. destruct (decompose_spec n e W Z0) as (c & -> & P & I). cbn [bind]. rewrite (wd_n n e W).
  pose proof P as P'. rewrite Forall_forall in P'. assert (V : forall g, In g c -> valid_gate n g) by (intros g Hg; apply P', Hg).
  destruct (from_circuit_spec n auto_name (map gconj c) (wd_pos n e W) auto_name_free) as (e' & -> & W' & Z' & I').
  { intros g Hg. apply in_map_iff in Hg as (g' & <- & Hg). apply gconj_valid, P', Hg. }
  exists e'. split; [reflexivity|]. split; [exact W'|]. split; [exact Z'|].
  destruct (implements_run n c e I) as (g & H). destruct (implements_run n _ e' I') as (g' & H').
  assert (X : forall x, same n (image e' x) (image e x) /\ eq8 (phase_at e' x) (g + g' - phase_at e x)).
  { intros x. destruct (runs_total n c x V) as (k & y & R). destruct (H x k y R) as [Hp Hs]. destruct (runs_conj n c P x k y R) as (k' & R' & Hk).
    destruct (H' x k' y R') as [Hp' Hs2]. split.
    - intros i Hi. rewrite <- (Hs2 i Hi). apply Hs, Hi.
    - rewrite Hp', Hp, Hk. apply eq8_k with 0%Z. ring. }
  split; [intros x; apply X|]. exists (g + g')%Z. intros x. apply X.
Qed.

Lemma gate_transpose g x k y : gname g <> str "y" -> gate_action g x = Some (k, y) -> exists x', gate_action g y = Some (k, x') /\ forall i, x' i = x i.
Proof.
  intros Ny. unfold gate_action.
  assert (U : forall q b i, upd (upd x q b) q (x q) i = x i).
  { intros q b i. unfold upd. destruct (Nat.eqb_spec i q) as [->|]; reflexivity. }
  destruct (eqb (gname g) (str "x")).
  { destruct (gqubits g) as [|q [|]]; try discriminate. intros H. injection H as <- <-. eexists. split; [reflexivity|]. intros i. rewrite upd_same, negb_involutive. apply U. }
  destruct (eqb (gname g) (str "y")) eqn:Ey; [name_eq Ey; contradiction|].
  destruct (eqb (gname g) (str "z")).
  { destruct (gqubits g) as [|q [|]]; try discriminate. intros H. assert (E2 : x = y) by congruence. subst y. rewrite H. eexists. split; [reflexivity|]. reflexivity. }
  destruct (eqb (gname g) (str "u1")).
  { destruct (gqubits g) as [|q [|]]; try discriminate. destruct (gparams g) as [|a [|]]; try discriminate. destruct (Z.pos (Qden a) =? 1)%Z; [|discriminate].
    intros H. assert (E2 : x = y) by congruence. subst y. rewrite H. eexists. split; [reflexivity|]. reflexivity. }
  destruct (eqb (gname g) (str "cx")).
  { destruct (gqubits g) as [|a [|b [|]]]; try discriminate. destruct (Nat.eqb_spec a b) as [|Hab]; [discriminate|]. intros H. injection H as <- <-. eexists. split; [reflexivity|].
    intros i. rewrite upd_same, (upd_other _ _ _ a Hab). replace (xorb (x a) (xorb (x a) (x b))) with (x b) by (destruct (x a), (x b); reflexivity). apply U. }
  destruct (eqb (gname g) (str "cz")).
  { destruct (gqubits g) as [|a [|b [|]]]; try discriminate. destruct (Nat.eqb_spec a b) as [|Hab]; [discriminate|]. intros H.
    assert (E2 : x = y) by congruence. subst y. rewrite H. eexists. split; [reflexivity|]. reflexivity. }
  destruct (eqb (gname g) (str "id")); [|discriminate]. intros H. assert (E2 : x = y) by congruence. subst y. rewrite H. eexists. split; [reflexivity|]. reflexivity.
Qed.

Lemma runs_rev n c : Forall (plain_gate n) c -> forall x k y, runs c x k y -> exists x', runs (rev c) y k x' /\ same n x' x.
Proof.
  induction c as [|g c IH]; intros P x k y H.
  - destruct H as [-> ->]. exists x. split; [split; reflexivity | intros i _; reflexivity].
  - inversion P as [|? ? Pg Pc]; subst. destruct H as (k1 & x1 & k2 & Hg & Hr & ->). destruct (IH Pc x1 k2 y Hr) as (x1' & Hr' & Hs).
    destruct (gate_transpose g x k1 x1 (proj2 Pg) Hg) as (x' & Hg' & He).
    destruct (gate_action_same n g x1 x1' k1 x' (proj1 (proj1 Pg)) (fun i Hi => eq_sym (Hs i Hi)) Hg') as (x2 & Hg2 & Hs2).
    exists x2. split.
    + replace (k1 + k2)%Z with (k2 + k1)%Z by ring. cbn [rev]. apply runs_app with (y := x1'); [exact Hr'|]. exists k1, x2, 0%Z. split; [exact Hg2|]. split; [split; reflexivity | ring].
    + intros i Hi. rewrite <- (Hs2 i Hi). apply He.
Qed.

Lemma transpose_spec n e : wf_cdi n e -> w0 (dpoly e) = 0%Z -> exists e', transpose det_odd e = Ok e' /\ wf_cdi n e' /\ w0 (dpoly e') = 0%Z /\
  (forall x, same n (image e' (image e x)) x) /\ exists g, forall x, eq8 (phase_at e' (image e x)) (g + phase_at e x).
Proof.
  intros W Z0. unfold transpose. destruct (decompose_spec n e W Z0) as (c & -> & P & I). cbn [bind]. rewrite (wd_n n e W).
  pose proof P as P'. rewrite Forall_forall in P'. assert (V : forall g, In g c -> valid_gate n g) by (intros g Hg; apply P', Hg).
  destruct (from_circuit_spec n auto_name (rev c) (wd_pos n e W) auto_name_free) as (e' & -> & W' & Z' & I').
  { intros g Hg. apply in_rev in Hg. apply V, Hg. }
  exists e'. split; [reflexivity|]. split; [exact W'|]. split; [exact Z'|].
  destruct (implements_run n c e I) as (g & H). destruct (implements_run n _ e' I') as (g' & H').
  assert (X : forall x, same n (image e' (image e x)) x /\ eq8 (phase_at e' (image e x)) (g' - g + phase_at e x)).
  { intros x. destruct (runs_total n c x V) as (k & y & R). destruct (H x k y R) as [Hp Hs]. destruct (runs_rev n c P x k y R) as (x' & R' & Hs').
    destruct (H' y k x' R') as [Hp' Hs2].
    assert (Sy : same n (image e x) y) by (intros i Hi; symmetry; apply Hs, Hi). split.
    - intros i Hi. rewrite (image_ext n e' _ _ W' Sy). rewrite <- (Hs2 i Hi). apply Hs', Hi.
    - rewrite (phase_ext n e' _ _ W' Sy), Hp', Hp. apply eq8_k with 0%Z. ring. }
  split; [intros x; apply X|]. exists (g' - g)%Z. intros x. apply X.
Qed.
End Det.

(** ** Compose and dot *)
Lemma drop_global_spec n e : wf_cdi n e -> wf_cdi n (drop_global e) /\ (forall x, same n (image (drop_global e) x) (image e x)) /\
  forall x, eq8 (phase_at (drop_global e) x) (- w0 (dpoly e) + phase_at e x).
Proof.
  intros W. destruct (set_w0 n (dpoly e) 0 (wd_poly n e W) (wd_special n e W)) as (Wp & Sp & Vp). change (0 mod 8)%Z with 0%Z in *. split; [|split].
  - destruct W. constructor; cbn [drop_global dn dpoly dlin dshift]; assumption.
  - intros x i _. reflexivity.
  - intros x. unfold phase_at. cbn [drop_global dpoly]. rewrite (Vp x). apply eq8_k with 0%Z. ring.
Qed.

Section Compose.
Variable set_list : list nat -> list nat -> list nat.
Variable n : nat.
Hypothesis Hset : iterates_sorted n set_list.

Lemma compose_spec a b (front : bool) : wf_cdi n a -> wf_cdi n b ->
  let first := if front then b else a in let second := if front then a else b in
  exists c, compose set_list a b front = Ok c /\ wf_cdi n c /\ w0 (dpoly c) = 0%Z /\
    (forall x, same n (image c x) (image second (image first x))) /\
    exists g, forall x, eq8 (phase_at c x) (g + phase_at first x + phase_at second (image first x)).
Proof.
  intros Wa Wb first second. unfold compose. rewrite (wd_n n a Wa), (wd_n n b Wb), Nat.eqb_refl.
  assert (W1 : wf_cdi n first) by (unfold first; destruct front; assumption). assert (W2 : wf_cdi n second) by (unfold second; destruct front; assumption).
  destruct (cmul_spec set_list n Hset second first W2 W1) as (c & E & Wc & H).
  replace (if front then cmul set_list a b else cmul set_list b a) with (cmul set_list second first) by (unfold first, second; destruct front; reflexivity).
  rewrite E. cbn [bind]. eexists. split; [reflexivity|]. destruct (drop_global_spec n c Wc) as (Wd & Hi & Hp). split; [exact Wd|]. split; [reflexivity|]. split.
  - intros x i Hlt. rewrite (Hi x i Hlt). apply (proj2 (H x)), Hlt.
  - exists (- w0 (dpoly c))%Z. intros x. rewrite (Hp x), (proj1 (H x)). apply eq8_k with 0%Z. ring.
Qed.

Lemma dot_compose a b : dot set_list a b = compose set_list a b true.
Proof. reflexivity. Qed.
End Compose.

(** ** Tensor product *)
Definition copy_list (n : nat) : list (list nat) :=
  flat_map (fun i : nat => [i] :: flat_map (fun j => [j; i] :: map (fun k => [k; j; i]) (seq 0 j)) (seq 0 i)) (seq 0 n).
Lemma foldM_flat_map {A B C} (g : A -> list C) (f : B -> C -> result B) l : forall b, foldM f (flat_map g l) b = foldM (fun b a => foldM f (g a) b) l b.
Proof.
  assert (Ap : forall l1 l2 b, foldM f (l1 ++ l2) b = do b' <- foldM f l1 b; foldM f l2 b').
  { induction l1 as [|a l1 IH]; intros l2 b; [reflexivity|]. cbn [app foldM]. destruct (f b a); [apply IH | reflexivity]. }
  induction l as [|a l IH]; intros b; [reflexivity|]. cbn [flat_map foldM]. rewrite Ap. destruct (foldM f (g a) b); [apply IH | reflexivity].
Qed.

Definition copy_one (src : poly) (off : nat) (dst : poly) (t : list nat) : result poly :=
  do v <- get_term src t; set_term dst (map (fun i => i + off) t) v.
Lemma copy_terms_list src dst off : copy_terms src dst off = foldM (copy_one src off) (copy_list (pn src)) dst.
Proof.
  unfold copy_terms, copy_list. rewrite foldM_flat_map. apply foldM_ext. intros d i _. cbn [foldM].
  change (copy_one src off d [i]) with (do v <- get_term src [i]; set_term d [i + off] v).
  destruct (get_term src [i]) as [v|]; [|reflexivity]. cbn [bind]. destruct (set_term d [i + off] v) as [d1|]; [|reflexivity]. cbn [bind].
  rewrite foldM_flat_map. apply foldM_ext. intros d2 j _. cbn [foldM].
  change (copy_one src off d2 [j; i]) with (do v <- get_term src [j; i]; set_term d2 [j + off; i + off] v).
  destruct (get_term src [j; i]) as [v2|]; [|reflexivity]. cbn [bind]. destruct (set_term d2 [j + off; i + off] v2) as [d3|]; [|reflexivity]. cbn [bind].
  rewrite foldM_map. reflexivity.
Qed.

Lemma copy_list_In n t : In t (copy_list n) <-> In t (terms n) /\ t <> [].
Proof.
  unfold copy_list. rewrite in_flat_map. split.
  - intros (i & Hi & H). apply in_seq in Hi. destruct H as [<-|H].
    + split; [|discriminate]. apply terms_In. cbn. split; [lia|]. split; [reflexivity|]. intros q [<-|[]]. lia.
    + apply in_flat_map in H as (j & Hj & H). apply in_seq in Hj. destruct H as [<-|H].
      * split; [|discriminate]. apply terms_In. split; [cbn; lia|]. split; [apply inc2; lia|]. intros q [<-|[<-|[]]]; lia.
      * apply in_map_iff in H as (k & <- & Hk). apply in_seq in Hk. split; [|discriminate]. apply terms_In. split; [cbn; lia|]. split; [apply inc3; lia|]. intros q [<-|[<-|[<-|[]]]]; lia.
  - intros [Ht Hne]. apply terms_In in Ht as (Hl & Hinc & Hr). destruct t as [|a [|b [|c [|]]]]; cbn in Hl; try lia; [contradiction| | |].
    + exists a. split; [apply in_seq; specialize (Hr a (or_introl eq_refl)); lia | left; reflexivity].
    + apply increasing_cons in Hinc as [H1 _]. specialize (H1 b (or_introl eq_refl)). exists b. split; [apply in_seq; specialize (Hr b ltac:(cbn; auto)); lia|].
      right. apply in_flat_map. exists a. split; [apply in_seq; lia | left; reflexivity].
    + apply increasing_cons in Hinc as [H1 Hinc]. apply increasing_cons in Hinc as [H2 _]. specialize (H1 b (or_introl eq_refl)). specialize (H2 c (or_introl eq_refl)).
      exists c. split; [apply in_seq; specialize (Hr c ltac:(cbn; auto)); lia|]. right. apply in_flat_map. exists b. split; [apply in_seq; lia|]. right.
      apply (in_map (fun k => [k; b; c])), in_seq. lia.
Qed.

Lemma nodup_flat_map {A B} (f : A -> list B) l : NoDup l -> (forall a, In a l -> NoDup (f a)) -> (forall a b x, In a l -> In b l -> In x (f a) -> In x (f b) -> a = b) -> NoDup (flat_map f l).
Proof.
  induction l as [|a l IH]; intros ND Hf Hd; [constructor|]. inversion ND as [|? ? Hn ND']; subst. cbn [flat_map]. apply nodup_app.
  - apply Hf. left; reflexivity.
  - apply IH; [exact ND' | intros b Hb; apply Hf; right; exact Hb|]. intros b c x Hb Hc. apply Hd; right; assumption.
  - intros x Hx Hx'. apply in_flat_map in Hx' as (b & Hb & Hx'). assert (a = b) by (apply (Hd a b x); [left; reflexivity | right; exact Hb | exact Hx | exact Hx']). subst. contradiction.
Qed.

Lemma copy_list_NoDup n : NoDup (copy_list n).
Proof.
  unfold copy_list. apply nodup_flat_map; [apply seq_NoDup| |].
  - intros i Hi. constructor.
    + intros H. apply in_flat_map in H as (j & _ & [H|H]); [discriminate|]. apply in_map_iff in H as (k & H & _). discriminate.
    + apply nodup_flat_map; [apply seq_NoDup| |].
      * intros j Hj. constructor.
        -- intros H. apply in_map_iff in H as (k & H & _). discriminate.
        -- apply FinFun.Injective_map_NoDup; [|apply seq_NoDup]. intros k k' H. injection H as H. exact H.
      * intros j j' x _ _ [<-|H] H'.
        -- destruct H' as [H'|H']; [injection H' as H'; auto|]. apply in_map_iff in H' as (k & H' & _). discriminate.
        -- apply in_map_iff in H as (k & <- & _). destruct H' as [H'|H']; [discriminate|]. apply in_map_iff in H' as (k' & H' & _). injection H' as _ H'. auto.
  - intros i i' x _ _ H H'.
    assert (Last : forall i x, In x ([i] :: flat_map (fun j => [j; i] :: map (fun k => [k; j; i]) (seq 0 j)) (seq 0 i)) -> last x 0 = i).
    { clear. intros i x [<-|H]; [reflexivity|]. apply in_flat_map in H as (j & _ & [<-|H]); [reflexivity|]. apply in_map_iff in H as (k & <- & _). reflexivity. }
    rewrite <- (Last i x H), <- (Last i' x H'). reflexivity.
Qed.

Lemma copy_terms_spec n m src dst off : wf_poly n src -> wf_poly m dst -> off + n <= m ->
  (forall t, In t (copy_list n) -> tm dst (map (fun i => i + off) t) = 0%Z) ->
  exists dst', copy_terms src dst off = Ok dst' /\ wf_poly m dst' /\ w0 dst' = w0 dst /\
    (forall t, In t (terms m) -> (exists t0, In t0 (copy_list n) /\ t = map (fun i => i + off) t0 /\ tm dst' t = tm src t0) \/ tm dst' t = tm dst t) /\
    (forall t, In t (terms m) -> (forall t0, In t0 (copy_list n) -> t <> map (fun i => i + off) t0) -> tm dst' t = tm dst t) /\
    forall x, eq8 (value dst' x) (value dst x + value src (fun i => x (i + off)) - w0 src).
Proof.
  intros Ws Wd Hoff H0. rewrite copy_terms_list, (wf_n n src Ws).
  assert (Tin : forall t, In t (copy_list n) -> In (map (fun i => i + off) t) (terms m)).
  { intros t Ht. apply copy_list_In in Ht as [Ht _]. apply terms_In in Ht as (Hl & Hinc & Hr). apply terms_In. rewrite map_length. split; [exact Hl|]. split.
    - clear -Hinc. induction t as [|a t IH]; [reflexivity|]. apply increasing_cons in Hinc as [H1 Hinc]. cbn [map]. apply increasing_cons. split; [|apply IH, Hinc].
      intros j Hj. apply in_map_iff in Hj as (j' & <- & Hj). specialize (H1 j' Hj). lia.
    - intros j Hj. apply in_map_iff in Hj as (j' & <- & Hj). specialize (Hr j' Hj). lia. }
  assert (Inj : forall t t' : list nat, map (fun i => i + off) t = map (fun i => i + off) t' -> t = t').
  { induction t as [|a t IH]; intros [|b t'] E; try discriminate; [reflexivity|]. injection E as E1 E2. f_equal; [lia | apply IH, E2]. }
  assert (G : forall l d, wf_poly m d -> NoDup l -> (forall t, In t l -> In t (copy_list n)) -> (forall t, In t l -> tm d (map (fun i => i + off) t) = 0%Z) ->
     exists d', foldM (copy_one src off) l d = Ok d' /\ wf_poly m d' /\ w0 d' = w0 d /\
       (forall t, In t (terms m) -> (exists t0, In t0 l /\ t = map (fun i => i + off) t0 /\ tm d' t = tm src t0) \/ tm d' t = tm d t) /\
       (forall t, In t (terms m) -> (forall t0, In t0 l -> t <> map (fun i => i + off) t0) -> tm d' t = tm d t) /\
       forall x, eq8 (value d' x) (value d x + zsum (map (fun t => tm src t * monomial (map (fun i => (i + off)%nat) t) x)%Z l))).
  { induction l as [|t l IH]; intros d W ND Hl Hz.
    - exists d. split; [reflexivity|]. split; [exact W|]. split; [reflexivity|]. split; [auto|]. split; [auto|]. intros x. cbn. rewrite Z.add_0_r. reflexivity.
    - inversion ND as [|? ? Hn ND']; subst. assert (Hc : In t (copy_list n)) by (apply Hl; left; reflexivity).
      pose proof (proj1 (proj1 (copy_list_In n t) Hc)) as Ht. cbn [foldM]. unfold copy_one at 1. rewrite (proj1 (get_term_tm n src t Ws Ht)). cbn [bind].
      destruct (set_term_spec m d (map (fun i => i + off) t) (tm src t) W (Tin t Hc)) as (d1 & -> & W1 & T1). cbn [bind].
      pose proof (tm_reduced n src t Ws Ht) as R. assert (Rm : (tm src t mod 8 = tm src t)%Z) by (unfold reduced in R; apply Z.mod_small; lia). rewrite Rm in T1.
      destruct (IH d1 W1 ND') as (d' & E & W' & Z' & A' & B' & V').
      + intros u Hu. apply Hl. right; exact Hu.
      + intros u Hu. rewrite T1 by (apply Tin, Hl; right; exact Hu). destruct (eqb_spec (map (fun i => i + off) t) (map (fun i => i + off) u)) as [Eq|_].
        * exfalso. apply Inj in Eq. subst. contradiction.
        * apply Hz. right; exact Hu.
      + exists d'. split; [exact E|]. split; [exact W'|]. split; [|split; [|split]].
        * rewrite Z'. rewrite <- !tm_0. rewrite T1 by apply nil_term. destruct t; [exfalso; apply copy_list_In in Hc; tauto|]. cbn [map].
          match goal with |- (if eqb ?a ?b then _ else _) = _ => destruct (eqb_spec a b) as [Eq|_]; [discriminate | reflexivity] end.
        * intros u Hu. destruct (A' u Hu) as [(t0 & Hin & Eq & Ev)|Ev]; [left; exists t0; split; [right; exact Hin | auto]|].
          rewrite T1 in Ev by exact Hu. destruct (eqb_spec (map (fun i => i + off) t) u) as [Eq|_]; [|right; exact Ev].
          left. exists t. split; [left; reflexivity|]. split; [auto | exact Ev].
        * intros u Hu Hno. rewrite (B' u Hu) by (intros t0 Hin; apply Hno; right; exact Hin). rewrite T1 by exact Hu.
          destruct (eqb_spec (map (fun i => i + off) t) u) as [Eq|_]; [|reflexivity]. exfalso. apply (Hno t (or_introl eq_refl)). auto.
        * intros x. rewrite (V' x), (value_set m d d1 (map (fun i => i + off) t) (tm src t) x W W1 (Tin t Hc) T1). rewrite Hz by (left; reflexivity).
          cbn [map zsum]. apply eq8_k with 0%Z. ring. }
  destruct (G (copy_list n) dst Wd (copy_list_NoDup n) (fun t h => h) H0) as (d' & E & W' & Z' & A' & B' & V').
  exists d'. split; [exact E|]. split; [exact W'|]. split; [exact Z'|]. split; [exact A'|]. split; [exact B'|]. intros x. rewrite (V' x).
  rewrite (value_tm n src _ Ws). 
  assert (Pm : Permutation ([] :: copy_list n) (terms n)).
  { apply NoDup_Permutation; [constructor; [rewrite copy_list_In; tauto | apply copy_list_NoDup] | apply terms_NoDup|]. intros t. cbn [In]. rewrite copy_list_In. split.
    - intros [<-|[H _]]; [apply nil_term | exact H].
    - intros H. destruct t; [left; reflexivity | right; split; [exact H | discriminate]]. }
  assert (Ez : forall l l' : list Z, Permutation l l' -> zsum l = zsum l') by (clear; intros l l' P; induction P; cbn; lia).
  rewrite <- (Ez _ _ (Permutation_map _ Pm)). cbn [map zsum]. rewrite tm_0. cbn [monomial].
  assert (Em : forall t, monomial (map (fun i => i + off) t) x = monomial t (fun i => x (i + off))).
  { induction t as [|a t IH]; [reflexivity|]. cbn [map monomial]. rewrite IH. reflexivity. }
  rewrite (zsum_map_ext _ (fun t => (tm src t * monomial t (fun i => x (i + off)%nat))%Z) (copy_list n)) by (intros t _; rewrite Em; reflexivity).
  apply eq8_k with 0%Z. ring.
Qed.

Lemma parity_app n0 n1 r r' x : length r = n0 -> length r' = n1 -> parity (n0 + n1) (r ++ r') x = xorb (parity n0 r x) (parity n1 r' (fun i => x (i + n0))).
Proof.
  intros H H'. unfold parity. rewrite seq_app, map_app. change (fold_right xorb false) with xsum.
  assert (Xa : forall l l', xsum (l ++ l') = xorb (xsum l) (xsum l')).
  { induction l as [|b l IH]; intros l'; [symmetry; apply xorb_false_l|]. cbn. change (fold_right xorb false) with xsum. unfold xsum in IH. unfold xsum. rewrite IH. symmetry. apply xorb_assoc. }
  rewrite Xa. f_equal.
  - apply xsum_ext. intros j Hj. apply in_seq in Hj. rewrite app_nth1 by lia. reflexivity.
  - cbn [Nat.add]. replace (seq n0 n1) with (map (fun i => i + n0) (seq 0 n1)).
    + rewrite map_map. apply xsum_ext. intros j Hj. rewrite app_nth2 by lia. replace (j + n0 - length r) with j by lia. reflexivity.
    + rewrite <- (map_seq_shift (fun i => i + n0) 0 n0 n1); [reflexivity|]. intros i Hi. lia.
Qed.
Lemma parity_zero n k x : parity n (repeat false k) x = false.
Proof.
  unfold parity. change (fold_right xorb false) with xsum. rewrite (xsum_ext _ (fun _ => false && true)).
  - rewrite (xsum_map_and (fun _ => true)). reflexivity.
  - intros j _. assert (Er : forall m i, nth i (repeat false m) false = false) by (induction m; intros [|i]; cbn; auto). rewrite Er. reflexivity.
Qed.

Lemma tensor_spec n0 n1 e0 e1 (reverse : bool) self other : wf_cdi n0 e0 -> wf_cdi n1 e1 ->
  (e0, e1) = (if reverse then (self, other) else (other, self)) ->
  exists e, tensor_ self other reverse = Ok e /\ wf_cdi (n0 + n1) e /\ w0 (dpoly e) = 0%Z /\
    (forall x i, i < n0 -> image e x i = image e0 x i) /\
    (forall x i, i < n1 -> image e x (i + n0) = image e1 (fun j => x (j + n0)) i) /\
    forall x, eq8 (phase_at e x) (- w0 (dpoly e0) - w0 (dpoly e1) + phase_at e0 x + phase_at e1 (fun j => x (j + n0))).
Proof.
  intros W0 W1 Er. unfold tensor_. replace (if reverse then self else other) with e0 by (destruct reverse; congruence).
  replace (if reverse then other else self) with e1 by (destruct reverse; congruence). clear Er self other reverse.
  rewrite (wd_n _ _ W0), (wd_n _ _ W1). set (m := n0 + n1). pose proof (wd_pos _ _ W0) as Hp0. pose proof (wd_pos _ _ W1) as Hp1.
  destruct (id_spec m) as (r & -> & Wr & Pr & _ & _ & _ & _); [unfold m; lia|]. cbn [bind].
  destruct (copy_terms_spec n0 m (dpoly e0) (dpoly r) 0) as (p & -> & Wp & Zp & Ap & Bp & Vp).
  { apply (wd_poly _ _ W0). } { apply (wd_poly _ _ Wr). } { unfold m; lia. }
  { intros t Ht. rewrite Pr. apply zeros_tm. apply copy_list_In in Ht as [Ht _]. apply terms_In in Ht as (Hl & Hinc & Hr). apply terms_In.
    rewrite (map_ext_in _ (fun i => i)) by (intros; lia). rewrite map_id. split; [exact Hl|]. split; [exact Hinc|]. intros j Hj. specialize (Hr j Hj). unfold m. lia. }
  cbn [bind].
  destruct (copy_terms_spec n1 m (dpoly e1) p n0) as (q & -> & Wq & Zq & Aq & Bq & Vq).
  { apply (wd_poly _ _ W1). } { exact Wp. } { unfold m; lia. }
  { intros t Ht. pose proof Ht as Ht'. apply copy_list_In in Ht' as [Hin Hne]. apply terms_In in Hin as (Hl & Hinc & Hr).
    assert (Hin' : In (map (fun i => i + n0) t) (terms m)).
    { apply terms_In. rewrite map_length. split; [exact Hl|]. split.
      - clear -Hinc. induction t as [|a t IH]; [reflexivity|]. apply increasing_cons in Hinc as [H1 Hinc]. cbn [map]. apply increasing_cons. split; [|apply IH, Hinc].
        intros j Hj. apply in_map_iff in Hj as (j' & <- & Hj). specialize (H1 j' Hj). lia.
      - intros j Hj. apply in_map_iff in Hj as (j' & <- & Hj). specialize (Hr j' Hj). unfold m. lia. }
    rewrite (Bp _ Hin'); [rewrite Pr; apply zeros_tm, Hin'|]. intros t0 Ht0 E. destruct t as [|a t]; [contradiction|]. apply copy_list_In in Ht0 as [Ht0 _].
    apply terms_In in Ht0 as (_ & _ & Hr0). destruct t0 as [|b t0]; [discriminate|]. cbn in E. injection E as E _. specialize (Hr0 b (or_introl eq_refl)). lia. }
  cbn [bind]. eexists. split; [reflexivity|]. set (e := {| dn := dn r |}). pose proof (wd_n _ _ Wr) as Hdn.
  pose proof (wd_lin _ _ W0) as L0. pose proof (wd_lin _ _ W1) as L1. pose proof (wd_shift _ _ W0) as S0. pose proof (wd_shift _ _ W1) as S1.
  assert (I0 : forall x i, i < n0 -> image e x i = image e0 x i).
  { intros x i Hi. unfold image. cbn [e dn dlin dshift]. rewrite Hdn, (wd_n _ _ W0). rewrite app_nth1 by (rewrite map_length; lia).
    rewrite nth_indep with (d' := (fun row => row ++ repeat false n1) []) by (rewrite map_length; lia). rewrite (map_nth (fun row => row ++ repeat false n1)).
    unfold m. rewrite parity_app by (apply (rows_len n0 e0 W0 i Hi) || apply repeat_length). rewrite parity_zero, xorb_false_r, app_nth1 by lia. reflexivity. }
  assert (I1 : forall x i, i < n1 -> image e x (i + n0) = image e1 (fun j => x (j + n0)) i).
  { intros x i Hi. unfold image. cbn [e dn dlin dshift]. rewrite Hdn, (wd_n _ _ W1). rewrite app_nth2 by (rewrite map_length; lia). rewrite map_length.
    replace (i + n0 - length (dlin e0)) with i by lia.
    rewrite nth_indep with (d' := (fun row => repeat false n0 ++ row) []) by (rewrite map_length; lia). rewrite (map_nth (fun row => repeat false n0 ++ row)).
    unfold m. rewrite parity_app by (apply (rows_len n1 e1 W1 i Hi) || apply repeat_length). rewrite parity_zero, xorb_false_l, app_nth2 by lia.
    replace (i + n0 - length (dshift e0)) with i by lia. reflexivity. }
  split; [|split; [|split; [exact I0 | split; [exact I1|]]]].
  - constructor; cbn [e dn dpoly dlin dshift].
    + exact Hdn.
    + unfold m; lia.
    + exact Wq.
    + apply (special_tm m q Wq). pose proof (proj1 (special_tm _ _ (wd_poly _ _ W0)) (wd_special _ _ W0)) as [A2 A3].
      pose proof (proj1 (special_tm _ _ (wd_poly _ _ W1)) (wd_special _ _ W1)) as [B2 B3].
      assert (Src : forall k t, In t (terms m) -> length t = S k -> (exists t0, length t0 = S k /\ In t0 (terms n1) /\ tm q t = tm (dpoly e1) t0) \/
          (exists t0, length t0 = S k /\ In t0 (terms n0) /\ tm q t = tm (dpoly e0) t0) \/ tm q t = 0%Z).
      { intros k t Ht Hl. destruct (Aq t Ht) as [(t0 & Hin & E & Ev)|Ev].
        - left. exists t0. apply copy_list_In in Hin as [Hin _]. split; [rewrite E, map_length in Hl; exact Hl|]. auto.
        - right. rewrite Ev. destruct (Ap t Ht) as [(t0 & Hin & E & Ev')|Ev'].
          + left. exists t0. apply copy_list_In in Hin as [Hin _]. split; [rewrite E, map_length in Hl; exact Hl|]. auto.
          + right. rewrite Ev', Pr. apply zeros_tm, Ht. }
      assert (Cs : forall k t0, In t0 (terms k) -> (length t0 = 2 -> In t0 (pairs k)) /\ (length t0 = 3 -> In t0 (triples k))).
      { intros k t0 Hin. destruct (terms_cases k t0 Hin) as [->|[(? & -> & _)|[(? & ? & -> & Hp)|(? & ? & ? & -> & Hp)]]]; split; intros Hl; try discriminate Hl; exact Hp. }
      split; intros t Ht.
      * assert (Hl : length t = 2) by (rewrite pairs_combs in Ht; apply (combs_sub _ _ _ Ht)). apply pairs_terms in Ht.
        destruct (Src 1 t Ht Hl) as [(t0 & Hl0 & Hin & ->)|[(t0 & Hl0 & Hin & ->)| ->]]; [apply B2, Cs; assumption | apply A2, Cs; assumption | reflexivity].
      * assert (Hl : length t = 3) by (rewrite triples_combs in Ht; apply (combs_sub _ _ _ Ht)). apply triples_terms in Ht.
        destruct (Src 2 t Ht Hl) as [(t0 & Hl0 & Hin & ->)|[(t0 & Hl0 & Hin & ->)| ->]]; [apply B3, Cs; assumption | apply A3, Cs; assumption | reflexivity].
    + rewrite app_length, !map_length. unfold m. lia.
    + apply Forall_app. split; apply Forall_forall; intros row Hr; apply in_map_iff in Hr as (r0 & <- & Hr); rewrite app_length, repeat_length.
      * pose proof (wd_rows _ _ W0) as F. rewrite Forall_forall in F. rewrite (F r0 Hr). reflexivity.
      * pose proof (wd_rows _ _ W1) as F. rewrite Forall_forall in F. rewrite (F r0 Hr). reflexivity.
    + rewrite app_length. unfold m. lia.
    + intros x y H i Hi. destruct (Nat.lt_ge_cases i n0) as [Hlt|Hge].
      * apply (wd_inj _ _ W0); [|exact Hlt]. intros j Hj. rewrite <- (I0 x j Hj), <- (I0 y j Hj). apply H. unfold m; lia.
      * pose proof (wd_inj _ _ W1 (fun j => x (j + n0)) (fun j => y (j + n0))) as X. specialize (X ltac:(intros j Hj; rewrite <- (I1 x j Hj), <- (I1 y j Hj); apply H; unfold m; lia) (i - n0) ltac:(unfold m in Hi; lia)).
        cbn beta in X. replace (i - n0 + n0) with i in X by lia. exact X.
  - cbn [e dpoly]. rewrite Zq, Zp, Pr. reflexivity.
  - intros x. unfold phase_at. cbn [e dpoly]. rewrite (Vq x), (Vp x), Pr, zeros_value.
    assert (Ex : value (dpoly e0) (fun i => x (i + 0)) = value (dpoly e0) x) by (apply (value_ext n0); [apply (wd_poly _ _ W0)|]; intros i _; rewrite Nat.add_0_r; reflexivity).
    rewrite Ex. apply eq8_k with 0%Z. ring.
Qed.
