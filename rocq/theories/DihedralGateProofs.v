(** The generators and circuits built from them. *)
From Coq Require Import QArith Setoid Morphisms.
From Verif Require Import Base DihedralModel DihedralSpec DihedralPolyProofs DihedralValueProofs DihedralGroupProofs.
Open Scope nat_scope.

Lemma upd_same x i b : upd x i b i = b.
Proof. unfold upd. rewrite Nat.eqb_refl. reflexivity. Qed.
Lemma upd_other x i b j : j <> i -> upd x i b j = x j.
Proof. intros H. unfold upd. apply Nat.eqb_neq in H as ->. reflexivity. Qed.

(** ** Generators *)
Lemma cnot_spec n e i j : wf_cdi n e -> i < n -> j < n -> i <> j -> exists e', cnot e i j = Ok e' /\ wf_cdi n e' /\ dpoly e' = dpoly e /\
  forall x, same n (image e' x) (upd (image e x) j (xorb (image e x i) (image e x j))).
Proof.
  intros W Hi Hj Hij. pose proof (wd_lin n e W) as Hlin. pose proof (wd_shift n e W) as Hsh. pose proof (wd_n n e W) as Hn.
  unfold cnot. rewrite Hn. replace (i <? n) with true by (symmetry; apply Nat.ltb_lt, Hi).
  replace (j <? n) with true by (symmetry; apply Nat.ltb_lt, Hj). cbn [andb]. eexists. split; [reflexivity|]. set (e' := {| dn := n |}).
  assert (Him : forall x, same n (image e' x) (upd (image e x) j (xorb (image e x i) (image e x j)))).
  { intros x k Hk. unfold image, upd. cbn [e' dn dlin dshift]. rewrite !set_nth_nth by lia. rewrite Hn. destruct (Nat.eqb_spec k j) as [->|_]; [|reflexivity].
    rewrite parity_xor by (apply (rows_len n e W); assumption).
    destruct (parity n (nth i (dlin e) []) x), (parity n (nth j (dlin e) []) x), (nth i (dshift e) false), (nth j (dshift e) false); reflexivity. }
  split; [|split; [reflexivity | exact Him]].
  constructor; cbn [dn dpoly dlin dshift e'].
  - reflexivity.
  - apply (wd_pos n e W).
  - apply (wd_poly n e W).
  - apply (wd_special n e W).
  - rewrite set_nth_length by lia. exact Hlin.
  - apply set_nth_Forall; [|apply (wd_rows n e W)]. rewrite map2_length; rewrite !(rows_len n e W) by assumption; reflexivity.
  - rewrite set_nth_length by lia. exact Hsh.
  - intros x y H. apply (wd_inj n e W).
    assert (H' : same n (upd (image e x) j (xorb (image e x i) (image e x j))) (upd (image e y) j (xorb (image e y i) (image e y j)))).
    { intros k Hk. rewrite <- (Him x k Hk), <- (Him y k Hk). apply H, Hk. }
    assert (Eo : forall k, k < n -> k <> j -> image e x k = image e y k).
    { intros k Hk Hkj. specialize (H' k Hk). rewrite !upd_other in H' by exact Hkj. exact H'. }
    intros k Hk. destruct (Nat.eq_dec k j) as [->|Hkj]; [|apply Eo; assumption].
    specialize (H' j Hj). rewrite !upd_same, (Eo i Hi Hij) in H'. destruct (image e y i), (image e x j), (image e y j); cbn in H'; congruence.
Qed.

Lemma flip_spec n e i : wf_cdi n e -> i < n -> exists e', flip e i = Ok e' /\ wf_cdi n e' /\ dpoly e' = dpoly e /\ dlin e' = dlin e /\
  (forall k, nth k (dshift e') false = if k =? i then negb (nth i (dshift e) false) else nth k (dshift e) false) /\
  forall x, same n (image e' x) (upd (image e x) i (negb (image e x i))).
Proof.
  intros W Hi. pose proof (wd_shift n e W) as Hsh. pose proof (wd_n n e W) as Hn.
  unfold flip. rewrite Hn. replace (i <? n) with true by (symmetry; apply Nat.ltb_lt, Hi). eexists. split; [reflexivity|]. set (e' := {| dn := n |}).
  assert (Hs : forall k, nth k (dshift e') false = if k =? i then negb (nth i (dshift e) false) else nth k (dshift e) false).
  { intros k. cbn [e' dshift]. apply set_nth_nth. lia. }
  assert (Him : forall x, same n (image e' x) (upd (image e x) i (negb (image e x i)))).
  { intros x k Hk. unfold image, upd. rewrite Hs. cbn [e' dn dlin]. rewrite Hn. destruct (Nat.eqb_spec k i) as [->|_]; [|reflexivity].
    destruct (parity n (nth i (dlin e) []) x), (nth i (dshift e) false); reflexivity. }
  split; [|split; [reflexivity | split; [reflexivity | split; [exact Hs | exact Him]]]].
  constructor; cbn [dn dpoly dlin dshift e'].
  - reflexivity.
  - apply (wd_pos n e W).
  - apply (wd_poly n e W).
  - apply (wd_special n e W).
  - apply (wd_lin n e W).
  - apply (wd_rows n e W).
  - rewrite set_nth_length by lia. exact Hsh.
  - intros x y H. apply (wd_inj n e W). intros k Hk. specialize (H k Hk). rewrite (Him x k Hk), (Him y k Hk) in H.
    unfold upd in H. destruct (Nat.eqb_spec k i) as [E|_]; [subst i|exact H]. destruct (image e x k), (image e y k); cbn in H; congruence.
Qed.

Definition pw (k : Z) (m : nat) : Z := (match m with 1%nat => k | 2%nat => -2 * k | 3%nat => 4 * k | _ => 0 end)%Z.

(** Adding a phase [k] on the exclusive or of the variables in a row. *)
Lemma add_parity n p k row : wf_poly n p -> special p -> exists p',
  (do p <- foldM (fun p j => add_term p [j] k) (support n row) p;
   do p <- foldM (fun p t => add_term p t (-2 * k)) (combs (support n row) 2) p;
   foldM (fun p t => add_term p t (4 * k)) (combs (support n row) 3) p) = Ok p' /\
  wf_poly n p' /\ special p' /\
  (forall t, In t (terms n) -> eq8 (tm p' t) (tm p t + (if existsb (eqb t) (combs (support n row) (length t)) then
       pw k (length t) else 0))%Z) /\
  forall x, eq8 (value p' x) (value p x + k * bit (parity n row x)).
Proof.
  intros W S. set (J := support n row).
  assert (ND : NoDup J) by (apply increasing_NoDup, support_increasing).
  assert (Len : forall k t, In t (combs J k) -> length t = k) by (intros m t Ht; apply (combs_sub J m t Ht)).
  assert (In3 : forall k t, k <= 3 -> In t (combs J k) -> In t (terms n)) by (intros m t; apply combs_support_terms).
  assert (Sum : forall c m t, In t (terms n) -> zsum (map (fun a => if eqb a t then c else 0%Z) (combs J m)) =
             if existsb (eqb t) (combs J m) then c else 0%Z).
  { intros c m t _. assert (NDc : NoDup (combs J m)) by (apply combs_NoDup, ND).
    destruct (existsb (eqb t) (combs J m)) eqn:Ex.
    - apply existsb_exists in Ex as (a & Ha & Ea). destruct (eqb_spec t a) as [<-|]; [|discriminate].
      rewrite (zsum_map_ext _ (fun a => if eqb t a then c else 0%Z)); [apply (zsum_pick _ t (fun _ => c) NDc Ha)|].
      intros a _. destruct (eqb_spec a t), (eqb_spec t a); congruence.
    - rewrite (zsum_map_ext _ (fun _ => 0%Z)); [apply zsum_map_zero|]. intros a Ha. destruct (eqb_spec a t) as [->|]; [|reflexivity].
      exfalso. assert (existsb (eqb t) (combs J m) = true); [|congruence]. apply existsb_exists. exists t. split; [exact Ha | apply eqb_refl]. }
  assert (Cut : forall m t x, m <= 3 -> In t (combs J m) -> cut_monomial t x = monomial t x).
  { intros m t x Hm Ht. unfold cut_monomial. rewrite (Len m t Ht). replace (m <? 4) with true by (symmetry; apply Nat.ltb_lt; lia). reflexivity. }
  assert (VS : forall c m x, m <= 3 -> zsum (map (fun a => (c * cut_monomial a x)%Z) (combs J m)) = (c * sym m J x)%Z).
  { intros c m x Hm. rewrite zsum_map_mul. f_equal. apply zsum_map_ext. intros a Ha. apply (Cut m); assumption. }
  assert (No : forall m t, length t <> m -> existsb (eqb t) (combs J m) = false).
  { intros m t Ht. apply not_true_iff_false. intros H. apply existsb_exists in H as (a & Ha & E). destruct (eqb_spec t a) as [->|]; [|discriminate].
    apply Len in Ha. contradiction. }
  rewrite <- (foldM_map (fun i => [i]) (fun p t => add_term p t k)), <- combs_1.
  destruct (fold_add n (combs J 1) (fun t => t) (fun _ => k) p W) as (p1 & -> & W1 & T1 & V1); [intros t Ht; left; apply (In3 1); [lia | exact Ht]|].
  cbn [bind].
  destruct (fold_add n (combs J 2) (fun t => t) (fun _ => (-2 * k)%Z) p1 W1) as (p2 & -> & W2 & T2 & V2); [intros t Ht; left; apply (In3 2); [lia | exact Ht]|].
  cbn [bind].
  destruct (fold_add n (combs J 3) (fun t => t) (fun _ => (4 * k)%Z) p2 W2) as (p3 & -> & W3 & T3 & V3); [intros t Ht; left; apply (In3 3); [lia | exact Ht]|].
  exists p3. split; [reflexivity|]. split; [exact W3|].
  assert (T : forall t, In t (terms n) -> eq8 (tm p3 t) (tm p t + (if existsb (eqb t) (combs J (length t)) then
       pw k (length t) else 0))%Z).
  { intros t Ht. rewrite (T3 t Ht), (T2 t Ht), (T1 t Ht), !Sum by exact Ht. destruct (length t) as [|[|[|[|m]]]] eqn:El.
    - rewrite (No 1), (No 2), (No 3) by lia. cbn [pw]. destruct (existsb _ _); apply eq8_k with 0%Z; ring.
    - rewrite (No 2), (No 3) by lia. cbn [pw]. apply eq8_k with 0%Z. ring.
    - rewrite (No 1), (No 3) by lia. cbn [pw]. apply eq8_k with 0%Z. ring.
    - rewrite (No 1), (No 2) by lia. cbn [pw]. apply eq8_k with 0%Z. ring.
    - apply terms_In in Ht as (Hl & _). lia. }
  split; [|split; [exact T|]].
  - apply (special_tm n _ W3). apply (special_tm n _ W) in S as [S2 S3]. split; intros t Ht.
    + assert (Hl : length t = 2) by (rewrite pairs_combs in Ht; apply (combs_sub _ _ _ Ht)). specialize (S2 t Ht). apply pairs_terms in Ht.
      eapply eq8_mod2; [symmetry; apply T, Ht|]. rewrite Hl. cbn [pw]. destruct (existsb _ _); lia.
    + assert (Hl : length t = 3) by (rewrite triples_combs in Ht; apply (combs_sub _ _ _ Ht)). specialize (S3 t Ht). apply triples_terms in Ht.
      eapply eq8_mod4; [symmetry; apply T, Ht|]. rewrite Hl. cbn [pw]. destruct (existsb _ _); lia.
  - intros x. rewrite (V3 x), (V2 x), (V1 x), !VS by lia. rewrite parity_support. fold J. rewrite <- (sym_parity J x).
    apply eq8_k with 0%Z. ring.
Qed.

Lemma bind_assoc3 {A B C D} (a : result A) (f : A -> result B) (g : B -> result C) (h : C -> D) :
  (do p <- a; do q <- f p; do r <- g q; Ok (h r)) = (do r <- (do p <- a; do q <- f p; g q); Ok (h r)).
Proof. destruct a as [p|]; [|reflexivity]. cbn. destruct (f p); reflexivity. Qed.

Lemma phase_spec n e k i : wf_cdi n e -> i < n -> exists e', phase e k i = Ok e' /\ wf_cdi n e' /\ dlin e' = dlin e /\ dshift e' = dshift e /\
  (nth i (dshift e) false = false -> forall t, In t (terms n) -> eq8 (tm (dpoly e') t)
     (tm (dpoly e) t + (if existsb (eqb t) (combs (support n (nth i (dlin e) [])) (length t)) then
       pw k (length t) else 0))%Z) /\
  w0 (dpoly e') = w0 (dpoly e) /\
  exists g, forall x, eq8 (phase_at e' x) (g + phase_at e x + k * bit (image e x i)).
Proof.
  intros W Hi. unfold phase. rewrite (wd_n n e W). replace (i <? n) with true by (symmetry; apply Nat.ltb_lt, Hi).
  set (k' := if nth i (dshift e) false then ((7 * k) mod 8)%Z else k).
  destruct (add_parity n (dpoly e) k' (nth i (dlin e) []) (wd_poly n e W) (wd_special n e W)) as (p' & E & Wp & Sp & Tp & Vp).
  rewrite bind_assoc3, E. cbn [bind]. eexists. split; [reflexivity|]. set (e' := {| dn := n |}).
  split; [|split; [reflexivity | split; [reflexivity|split; [|split]]]].
  - constructor; cbn [dn dpoly dlin dshift e'].
    + reflexivity.
    + apply (wd_pos n e W).
    + exact Wp.
    + exact Sp.
    + apply (wd_lin n e W).
    + apply (wd_rows n e W).
    + apply (wd_shift n e W).
    + intros x y H. apply (wd_inj n e W). intros j Hj. specialize (H j Hj). unfold image in *. cbn [e' dn dlin dshift] in H.
      rewrite (wd_n n e W). exact H.
  - intros Hs. unfold k' in Tp. rewrite Hs in Tp. exact Tp.
  - cbn [dpoly e']. pose proof (Tp [] (nil_term n)) as T0. cbn [length] in T0. rewrite !tm_0 in T0.
    apply eq8_reduced; [apply (wf_c0 n _ Wp) | apply (wf_c0 n _ (wd_poly n e W))|]. rewrite T0. cbn [pw]. destruct (existsb _ _); apply eq8_k with 0%Z; ring.
  - exists (if nth i (dshift e) false then - k else 0)%Z. intros x. unfold phase_at. cbn [dpoly e']. rewrite (Vp x). unfold image. rewrite (wd_n n e W).
    unfold k'. destruct (nth i (dshift e) false).
    + rewrite (eq8_mod (7 * k)), bit_xor. cbn [bit]. apply eq8_k with (k * bit (parity n (nth i (dlin e) []) x))%Z. ring.
    + rewrite xorb_false_r. apply eq8_k with 0%Z. ring.
Qed.

(** ** Tracking one gate *)
(** Gates respect equality of points. *)
Lemma gate_action_same n g x x' k y : (forall q, In q (gqubits g) -> q < n) -> same n x x' -> gate_action g x = Some (k, y) ->
  exists y', gate_action g x' = Some (k, y') /\ same n y y'.
Proof.
  intros Hq Hs. unfold gate_action.
  assert (U : forall q b, same n (upd x q b) (upd x' q b)) by (intros q b j Hj; unfold upd; destruct (j =? q); auto).
  destruct (eqb (gname g) (str "x")).
  { destruct (gqubits g) as [|q [|]]; try discriminate. intros H. injection H as <- <-. rewrite (Hs q) by (apply Hq; left; reflexivity). eauto. }
  destruct (eqb (gname g) (str "y")).
  { destruct (gqubits g) as [|q [|]]; try discriminate. intros H. injection H as <- <-. rewrite (Hs q) by (apply Hq; left; reflexivity). eauto. }
  destruct (eqb (gname g) (str "z")).
  { destruct (gqubits g) as [|q [|]]; try discriminate. intros H. injection H as <- <-. rewrite (Hs q) by (apply Hq; left; reflexivity). eauto. }
  destruct (eqb (gname g) (str "u1")).
  { destruct (gqubits g) as [|q [|]]; try discriminate. destruct (gparams g) as [|a [|]]; try discriminate. destruct (_ =? _)%Z; [|discriminate].
    intros H. injection H as <- <-. rewrite (Hs q) by (apply Hq; left; reflexivity). eauto. }
  destruct (eqb (gname g) (str "cx")).
  { destruct (gqubits g) as [|q [|q' [|]]]; try discriminate. destruct (q =? q'); [discriminate|]. intros H. injection H as <- <-.
    rewrite (Hs q), (Hs q') by (apply Hq; cbn; auto). eauto. }
  destruct (eqb (gname g) (str "cz")).
  { destruct (gqubits g) as [|q [|q' [|]]]; try discriminate. destruct (q =? q'); [discriminate|]. intros H. injection H as <- <-.
    rewrite (Hs q), (Hs q') by (apply Hq; cbn; auto). eauto. }
  destruct (eqb (gname g) (str "id")); [|discriminate]. intros H. injection H as <- <-. eauto.
Qed.

Lemma runs_same n c : (forall g, In g c -> valid_gate n g) -> forall x x' k y, same n x x' -> runs c x k y -> exists y', runs c x' k y' /\ same n y y'.
Proof.
  induction c as [|g c IH]; intros Hv x x' k y Hs H.
  - destruct H as [-> ->]. exists x'. split; [split; reflexivity | exact Hs].
  - destruct H as (k1 & x1 & k2 & Hg & Hr & ->).
    destruct (gate_action_same n g x x' k1 x1 (proj1 (Hv g (or_introl eq_refl))) Hs Hg) as (x1' & Hg' & Hs').
    destruct (IH (fun h Hh => Hv h (or_intror Hh)) x1 x1' k2 y Hs' Hr) as (y' & Hr' & Hs2).
    exists y'. split; [|exact Hs2]. exists k1, x1', k2. auto.
Qed.

Lemma runs_app c c' x k y k' z : runs c x k y -> runs c' y k' z -> runs (c ++ c') x (k + k') z.
Proof.
  revert x k. induction c as [|g c IH]; intros x k H H'.
  - destruct H as [-> ->]. exact H'.
  - destruct H as (k1 & x1 & k2 & Hg & Hr & ->). cbn [app]. exists k1, x1, (k2 + k')%Z. split; [exact Hg|]. split; [apply IH; assumption | ring].
Qed.

Lemma tracks_nil n e : tracks n e [] e.
Proof. exists 0%Z. intros x. exists 0%Z, (image e x). split; [split; reflexivity|]. split; [apply eq8_k with 0%Z; ring | intros i _; reflexivity]. Qed.
Lemma tracks_app n e c e' c' e'' : (forall g, In g c' -> valid_gate n g) -> tracks n e c e' -> tracks n e' c' e'' -> tracks n e (c ++ c') e''.
Proof.
  intros Hv (g1 & H1) (g2 & H2). exists (g1 + g2)%Z. intros x. destruct (H1 x) as (k & y & Hr & Hp & Hs). destruct (H2 x) as (k' & z & Hr' & Hp' & Hs').
  destruct (runs_same n c' Hv (image e' x) y k' z (fun i Hi => eq_sym (Hs i Hi)) Hr') as (z' & Hr2 & Hs2).
  exists (k + k')%Z, z'. split; [eapply runs_app; eassumption|]. split.
  - rewrite Hp', Hp. apply eq8_k with 0%Z. ring.
  - intros i Hi. rewrite <- (Hs2 i Hi). apply Hs', Hi.
Qed.

(** The body of one iteration of [append_circuit], for a circuit name that is
    not a gate name. *)
Definition step_gate (e : cdi) (nm : pystr) (params : list Q) (qs : list nat) : result cdi :=
      let is := fun s => eqb nm (str s) in
      if is "x"%string then match qs with [q] => flip e q | _ => Err QiskitError end
      else if is "z"%string then match qs with [q] => phase e 4 q | _ => Err QiskitError end
      else if is "y"%string then
        match qs with [q] => do e <- flip e q; phase e 4 q | _ => Err QiskitError end
      else if is "u1"%string then
        match qs, params with [q], [a] => phase e (trunc a) q | _, _ => Err QiskitError end
      else if is "cx"%string then match qs with [c; t] => cnot e c t | _ => Err QiskitError end
      else if is "cz"%string then
        match qs with
        | [a; b] =>
            do e <- phase e 7 b; do e <- phase e 7 a; do e <- cnot e b a; do e <- phase e 2 a;
            do e <- cnot e b a; do e <- phase e 7 b; phase e 7 a
        | _ => Err QiskitError
        end
      else if is "id"%string then Ok e
      else Err QiskitError.

Lemma append_circuit_steps e cname body qargs : ~ In cname reserved ->
  append_circuit e cname body qargs = foldM (fun e g => do qs <- mapM (index_e qargs) (gqubits g); step_gate e (gname g) (gparams g) qs) body e.
Proof.
  intros H. unfold append_circuit.
  assert (Hn : forall s, In s ["cx"; "x"; "z"; "y"; "u1"; "cz"; "id"]%string -> eqb cname (str s) = false).
  { intros s Hs. destruct (eqb_spec cname (str s)) as [->|]; [|reflexivity]. exfalso. apply H. unfold reserved. apply in_map, Hs. }
  rewrite (Hn "cx"%string) by (cbn; auto). apply foldM_ext. intros b a _. destruct (mapM (index_e qargs) (gqubits a)) as [qs|]; [|reflexivity]. cbn [bind].
  unfold step_gate. rewrite !Hn by (cbn; tauto). rewrite !orb_false_r. reflexivity.
Qed.

(** The gate with its qubits renamed. *)
Lemma tracks_phase n e k i e' : wf_cdi n e -> i < n -> phase e k i = Ok e' -> wf_cdi n e' /\ w0 (dpoly e') = w0 (dpoly e) /\
  (forall x, same n (image e x) (image e' x)) /\ exists g, forall x, eq8 (phase_at e' x) (g + phase_at e x + k * bit (image e x i)).
Proof.
  intros W Hi E. destruct (phase_spec n e k i W Hi) as (e1 & E1 & W1 & L1 & S1 & _ & Z1 & Hg). rewrite E in E1. injection E1 as <-.
  split; [exact W1|]. split; [exact Z1|]. split; [|exact Hg]. intros x j Hj. unfold image. rewrite (wd_n n e W), (wd_n n e' W1), L1, S1. reflexivity.
Qed.

Lemma trunc_int a : (Zpos (Qden a) = 1)%Z -> trunc a = Qnum a.
Proof. intros H. unfold trunc. rewrite H. apply Z.quot_1_r. Qed.

Ltac name_eq H := match type of H with eqb ?a ?b = true => destruct (eqb_spec a b) as [?|]; [|discriminate] end.

Lemma track_one (F : point -> option (Z * point)) n e e' :
  (exists gl, forall x, exists k y, F x = Some (k, y) /\ eq8 (phase_at e' x) (gl + phase_at e x + k) /\ same n y (image e' x)) ->
  exists gl, forall x, exists k y, (exists k1 x1 k2, F x = Some (k1, x1) /\ (k2 = 0%Z /\ y = x1) /\ k = (k1 + k2)%Z) /\
       eq8 (phase_at e' x) (gl + phase_at e x + k) /\ same n y (image e' x).
Proof.
  intros (gl & H). exists gl. intros x. destruct (H x) as (k & y & Ha & Hb & Hc). exists k, y. split; [|auto]. exists k, y, 0%Z. rewrite Z.add_0_r. auto.
Qed.

Lemma step_gate_spec n e g : wf_cdi n e -> valid_gate n g -> exists e', step_gate e (gname g) (gparams g) (gqubits g) = Ok e' /\ wf_cdi n e' /\
  w0 (dpoly e') = w0 (dpoly e) /\ tracks n e [g] e'.
Proof.
  intros W [Hq Hv]. unfold tracks. cbn [runs].
  assert (Flip : forall q, q < n -> exists e', flip e q = Ok e' /\ wf_cdi n e' /\ w0 (dpoly e') = w0 (dpoly e) /\
     forall x, eq8 (phase_at e' x) (phase_at e x) /\ same n (upd (image e x) q (negb (image e x q))) (image e' x)).
  { intros q Hlt. destruct (flip_spec n e q W Hlt) as (e' & E & W' & P & _ & _ & I). exists e'. split; [exact E|]. split; [exact W'|]. rewrite P. split; [reflexivity|].
    intros x. split; [unfold phase_at; rewrite P; reflexivity|]. intros i Hi. symmetry. apply (I x i Hi). }
  assert (Cn : forall e a b, wf_cdi n e -> a < n -> b < n -> a <> b -> exists e', cnot e a b = Ok e' /\ wf_cdi n e' /\ w0 (dpoly e') = w0 (dpoly e) /\
     (forall x, phase_at e' x = phase_at e x) /\ forall x, same n (image e' x) (upd (image e x) b (xorb (image e x a) (image e x b)))).
  { intros e0 a b W0 Ha Hb Hab. destruct (cnot_spec n e0 a b W0 Ha Hb Hab) as (e' & E & W' & P & I). exists e'. split; [exact E|]. split; [exact W'|]. rewrite P.
    split; [reflexivity|]. split; [intros x; unfold phase_at; rewrite P; reflexivity | exact I]. }
  assert (Ph : forall e k q, wf_cdi n e -> q < n -> exists e', phase e k q = Ok e' /\ wf_cdi n e' /\ w0 (dpoly e') = w0 (dpoly e) /\
     (forall x, same n (image e x) (image e' x)) /\ exists gl, forall x, eq8 (phase_at e' x) (gl + phase_at e x + k * bit (image e x q))).
  { intros e0 k q W0 Hlt. destruct (phase_spec n e0 k q W0 Hlt) as (e' & E & _). exists e'. split; [exact E|]. apply tracks_phase; assumption. }
  unfold step_gate. unfold gate_action in Hv |- *. 
  destruct (eqb (gname g) (str "x")) eqn:Ex.
  { destruct (gqubits g) as [|q [|]]; try (exfalso; apply Hv; reflexivity). destruct (Flip q) as (e' & E & W' & Z' & H); [apply Hq; left; reflexivity|].
    exists e'. split; [exact E|]. split; [exact W'|]. split; [exact Z'|]. apply track_one. exists 0%Z. intros x. eexists _, _. split; [reflexivity|].
    destruct (H x) as [Hp Hi]. split; [rewrite Hp; apply eq8_k with 0%Z; ring | exact Hi]. }
  destruct (eqb (gname g) (str "y")) eqn:Ey.
  { name_eq Ey. replace (eqb (gname g) (str "z")) with false by (rewrite e0; reflexivity).
    destruct (gqubits g) as [|q [|]]; try (exfalso; apply Hv; reflexivity). assert (Hlt : q < n) by (apply Hq; left; reflexivity).
    destruct (Flip q Hlt) as (e1 & -> & W1 & Z1 & H1). cbn [bind]. destruct (Ph e1 4%Z q W1 Hlt) as (e2 & E & W2 & Z2 & I2 & gl & H2).
    exists e2. split; [exact E|]. split; [exact W2|]. split; [congruence|]. apply track_one. exists (gl + 2)%Z. intros x. eexists _, _. split; [reflexivity|].
    destruct (H1 x) as [Hp Hi]. split.
    - rewrite (H2 x), Hp. rewrite <- (Hi q Hlt), upd_same, bit_neg. destruct (image e x q); cbn [bit]; [apply eq8_k with (-1)%Z | apply eq8_k with 0%Z]; ring.
    - intros i Hlti. rewrite (Hi i Hlti). apply (I2 x i Hlti). }
  destruct (eqb (gname g) (str "z")) eqn:Ez.
  { destruct (gqubits g) as [|q [|]]; try (exfalso; apply Hv; reflexivity). destruct (Ph e 4%Z q W) as (e' & E & W' & Z' & I & gl & H); [apply Hq; left; reflexivity|].
    exists e'. split; [exact E|]. split; [exact W'|]. split; [exact Z'|]. apply track_one. exists gl. intros x. eexists _, _. split; [reflexivity|].
    split; [rewrite (H x); reflexivity | apply I]. }
  destruct (eqb (gname g) (str "u1")) eqn:Eu.
  { destruct (gqubits g) as [|q [|]]; try (exfalso; apply Hv; reflexivity). destruct (gparams g) as [|a [|]]; try (exfalso; apply Hv; reflexivity).
    destruct (Z.eqb_spec (Z.pos (Qden a)) 1) as [Ed|]; [|exfalso; apply Hv; reflexivity].
    destruct (Ph e (trunc a) q W) as (e' & E & W' & Z' & I & gl & H); [apply Hq; left; reflexivity|].
    exists e'. split; [exact E|]. split; [exact W'|]. split; [exact Z'|]. apply track_one. exists gl. intros x. eexists _, _. split; [reflexivity|].
    split; [rewrite (H x), (trunc_int a Ed); reflexivity | apply I]. }
  destruct (eqb (gname g) (str "cx")) eqn:Ec.
  { destruct (gqubits g) as [|a [|b [|]]]; try (exfalso; apply Hv; reflexivity). destruct (Nat.eqb_spec a b) as [|Hab]; [exfalso; apply Hv; reflexivity|].
    destruct (Cn e a b W) as (e' & E & W' & Z' & P & I); [apply Hq; cbn; auto .. | exact Hab|].
    exists e'. split; [exact E|]. split; [exact W'|]. split; [exact Z'|]. apply track_one. exists 0%Z. intros x. eexists _, _. split; [reflexivity|].
    split; [rewrite P; apply eq8_k with 0%Z; ring|]. intros i Hi. symmetry. apply (I x i Hi). }
  destruct (eqb (gname g) (str "cz")) eqn:Ecz.
  { destruct (gqubits g) as [|a [|b [|]]]; try (exfalso; apply Hv; reflexivity). destruct (Nat.eqb_spec a b) as [|Hab]; [exfalso; apply Hv; reflexivity|].
    assert (Ha : a < n) by (apply Hq; cbn; auto). assert (Hb : b < n) by (apply Hq; cbn; auto).
    destruct (Ph e 7%Z b W Hb) as (e1 & -> & W1 & Z1 & I1 & g1 & H1). cbn [bind].
    destruct (Ph e1 7%Z a W1 Ha) as (e2 & -> & W2 & Z2 & I2 & g2 & H2). cbn [bind].
    destruct (Cn e2 b a W2 Hb Ha (not_eq_sym Hab)) as (e3 & -> & W3 & Z3 & P3 & I3). cbn [bind].
    destruct (Ph e3 2%Z a W3 Ha) as (e4 & -> & W4 & Z4 & I4 & g4 & H4). cbn [bind].
    destruct (Cn e4 b a W4 Hb Ha (not_eq_sym Hab)) as (e5 & -> & W5 & Z5 & P5 & I5). cbn [bind].
    destruct (Ph e5 7%Z b W5 Hb) as (e6 & -> & W6 & Z6 & I6 & g6 & H6). cbn [bind].
    destruct (Ph e6 7%Z a W6 Ha) as (e7 & E7 & W7 & Z7 & I7 & g7 & H7).
    exists e7. split; [exact E7|]. split; [exact W7|]. split; [congruence|]. apply track_one. exists (g1 + g2 + g4 + g6 + g7)%Z. intros x. eexists _, _. split; [reflexivity|].
    assert (A1 : forall q, q < n -> image e1 x q = image e x q) by (intros q Hlt; rewrite (I1 x q Hlt); reflexivity).
    assert (A2 : forall q, q < n -> image e2 x q = image e x q) by (intros q Hlt; rewrite <- (I2 x q Hlt); auto).
    assert (A3 : image e3 x a = xorb (image e x b) (image e x a) /\ image e3 x b = image e x b).
    { rewrite (I3 x a Ha), (I3 x b Hb), upd_same, upd_other, !A2 by auto. auto. }
    assert (A4 : image e4 x a = xorb (image e x b) (image e x a) /\ image e4 x b = image e x b).
    { rewrite <- (I4 x a Ha), <- (I4 x b Hb). exact A3. }
    assert (A5 : forall q, q < n -> image e5 x q = image e x q).
    { intros q Hlt. rewrite (I5 x q Hlt). destruct (Nat.eq_dec q a) as [->|Hqa].
      - rewrite upd_same, (proj1 A4), (proj2 A4). destruct (image e x b), (image e x a); reflexivity.
      - rewrite upd_other by exact Hqa. rewrite <- (I4 x q Hlt), (I3 x q Hlt), upd_other by exact Hqa. apply A2, Hlt. }
    assert (A6 : forall q, q < n -> image e6 x q = image e x q) by (intros q Hlt; rewrite <- (I6 x q Hlt); auto).
    split.
    - rewrite (H7 x), (H6 x), (P5 x), (H4 x), (P3 x), (H2 x), (H1 x). rewrite (A6 a Ha), (A5 b Hb), (proj1 A3), (A1 a Ha).
      destruct (image e x a), (image e x b); cbn [xorb bit]; [apply eq8_k with 3%Z | apply eq8_k with 2%Z | apply eq8_k with 2%Z | apply eq8_k with 0%Z]; ring.
    - intros i Hi. rewrite <- (I7 x i Hi), (A6 i Hi). reflexivity. }
  destruct (eqb (gname g) (str "id")) eqn:Ei; [|exfalso; apply Hv; reflexivity].
  exists e. split; [reflexivity|]. split; [exact W|]. split; [reflexivity|]. apply track_one. exists 0%Z. intros x. eexists _, _. split; [reflexivity|].
  split; [apply eq8_k with 0%Z; ring | intros i _; reflexivity].
Qed.

Lemma fold_steps n body : forall e, wf_cdi n e -> (forall g, In g body -> valid_gate n g) ->
  exists e', foldM (fun e g => step_gate e (gname g) (gparams g) (gqubits g)) body e = Ok e' /\ wf_cdi n e' /\ w0 (dpoly e') = w0 (dpoly e) /\ tracks n e body e'.
Proof.
  induction body as [|g body IH]; intros e W Hv.
  - exists e. split; [reflexivity|]. split; [exact W|]. split; [reflexivity | apply tracks_nil].
  - cbn [foldM]. destruct (step_gate_spec n e g W (Hv g (or_introl eq_refl))) as (e1 & -> & W1 & Z1 & T1). cbn [bind].
    destruct (IH e1 W1 (fun h Hh => Hv h (or_intror Hh))) as (e' & E & W' & Z' & T'). exists e'. split; [exact E|]. split; [exact W'|]. split; [congruence|].
    apply (tracks_app n e [g] e1 body e'); [intros h Hh; apply Hv; right; exact Hh | exact T1 | exact T'].
Qed.

Lemma append_circuit_spec n e cname body qargs : wf_cdi n e -> ~ In cname reserved ->
  (forall g q, In g body -> In q (gqubits g) -> q < length qargs) ->
  (forall g, In g body -> valid_gate n (regate qargs g)) ->
  exists e', append_circuit e cname body qargs = Ok e' /\ wf_cdi n e' /\ w0 (dpoly e') = w0 (dpoly e) /\ tracks n e (map (regate qargs) body) e'.
Proof.
  intros W Hn Hq Hv. rewrite append_circuit_steps by exact Hn.
  destruct (fold_steps n (map (regate qargs) body) e W) as (e' & E & W' & Z' & T').
  { intros g Hg. apply in_map_iff in Hg as (g' & <- & Hg). apply Hv, Hg. }
  exists e'. split; [|auto]. rewrite <- E, foldM_map. apply foldM_ext. intros b g Hg.
  rewrite (mapM_index qargs 0) by (intros q; apply Hq, Hg). reflexivity.
Qed.

(** ** The identity and circuits *)
Lemma eye_nth n i j : i < n -> j < n -> nth j (nth i (eye n) []) false = (i =? j).
Proof. intros Hi Hj. unfold eye. rewrite nth_map_seq by exact Hi. rewrite nth_map_seq by exact Hj. reflexivity. Qed.
Lemma parity_unit n row i x : i < n -> (forall j, j < n -> nth j row false = (i =? j)) -> parity n row x = x i.
Proof.
  intros Hi H. unfold parity. change (fold_right xorb false) with xsum.
  rewrite (xsum_ext _ (fun j => x i && Nat.eqb i j)).
  2:{ intros j Hj. apply in_seq in Hj. rewrite H by lia. destruct (Nat.eqb_spec i j) as [->|]; [rewrite andb_true_r; reflexivity | rewrite andb_false_r; reflexivity]. }
  rewrite xsum_map_and. replace (xsum (map (Nat.eqb i) (seq 0 n))) with true; [apply andb_true_r|]. symmetry.
  assert (G : forall m a, a <= i < a + m -> xsum (map (Nat.eqb i) (seq a m)) = true).
  { assert (G0 : forall m a, i < a -> xsum (map (Nat.eqb i) (seq a m)) = false).
    { induction m as [|m IH]; intros a Ha; [reflexivity|]. cbn [seq map xsum fold_right]. replace (i =? a) with false by (symmetry; apply Nat.eqb_neq; lia).
      rewrite xorb_false_l. apply IH. lia. }
    induction m as [|m IH]; intros a Ha; [lia|]. cbn [seq map xsum fold_right]. destruct (Nat.eqb_spec i a) as [->|].
    - change (fold_right xorb false) with xsum. rewrite G0 by lia. reflexivity.
    - rewrite xorb_false_l. apply IH. lia. }
  apply G. lia.
Qed.

Lemma id_spec n : 1 <= n -> exists e, cdi_id n = Ok e /\ wf_cdi n e /\ dpoly e = zeros n /\ dlin e = eye n /\ dshift e = repeat false n /\
  (forall x, phase_at e x = 0%Z) /\ forall x, same n (image e x) x.
Proof.
  intros Hn. unfold cdi_id, special_polynomial. replace (n <? 1) with false by (symmetry; apply Nat.ltb_ge; lia). cbn [bind].
  eexists. split; [reflexivity|]. set (e := {| dn := n |}).
  assert (Him : forall x, same n (image e x) x).
  { intros x i Hi. unfold image. cbn [e dn dlin dshift]. rewrite (parity_unit n _ i) by (exact Hi || (intros j Hj; apply eye_nth; assumption)).
    assert (Er : forall m k, nth k (repeat false m) false = false) by (induction m; intros [|k]; cbn; auto). rewrite Er. apply xorb_false_r. }
  split.
  - constructor; cbn [e dn dpoly dlin dshift].
    + reflexivity.
    + exact Hn.
    + apply zeros_wf.
    + apply zeros_special.
    + unfold eye. rewrite map_length, seq_length. reflexivity.
    + apply Forall_forall. intros r Hr. apply in_map_iff in Hr as (i & <- & _). rewrite map_length, seq_length. reflexivity.
    + apply repeat_length.
    + intros x y H i Hi. rewrite <- (Him x i Hi), <- (Him y i Hi). apply H, Hi.
  - split; [reflexivity|]. split; [reflexivity|]. split; [reflexivity|]. split; [|exact Him]. intros x. apply zeros_value.
Qed.

Lemma regate_seq n g : (forall q, In q (gqubits g) -> q < n) -> regate (seq 0 n) g = g.
Proof.
  intros H. destruct g as [nm ps qs]. unfold regate. cbn in *. f_equal. rewrite <- (map_id qs) at 2. apply map_ext_in. intros q Hq. rewrite seq_nth by (apply H, Hq). reflexivity.
Qed.

Lemma from_circuit_spec n cname body : 1 <= n -> ~ In cname reserved -> (forall g, In g body -> valid_gate n g) ->
  exists e, from_circuit n cname body = Ok e /\ wf_cdi n e /\ w0 (dpoly e) = 0%Z /\ implements n body e.
Proof.
  intros Hn Hc Hv. unfold from_circuit. destruct (id_spec n Hn) as (e0 & -> & W0 & P0 & _ & _ & Ph0 & I0). cbn [bind].
  assert (Er : map (regate (seq 0 n)) body = body).
  { rewrite <- (map_id body) at 2. apply map_ext_in. intros g Hg. apply regate_seq, (proj1 (Hv g Hg)). }
  destruct (append_circuit_spec n e0 cname body (seq 0 n) W0 Hc) as (e & E & W & Z & gl & T).
  { intros g q Hg Hq. rewrite seq_length. apply (proj1 (Hv g Hg)), Hq. }
  { intros g Hg. rewrite regate_seq by apply (Hv g Hg). apply Hv, Hg. }
  exists e. split; [exact E|]. split; [exact W|]. split; [rewrite Z, P0; reflexivity|]. exists gl. intros x. destruct (T x) as (k & y & Hr & Hp & Hs).
  rewrite Er in Hr. destruct (runs_same n body Hv (image e0 x) x k y (I0 x) Hr) as (y' & Hr' & Hs').
  exists k, y'. split; [exact Hr'|]. split; [rewrite Hp, Ph0; apply eq8_k with 0%Z; ring|]. intros i Hi. rewrite <- (Hs' i Hi). apply Hs, Hi.
Qed.
