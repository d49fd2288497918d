(** Decaying qubits in the coherence circuits (C68). *)
From Coq Require Import QArith Qreals Reals Lra.
From Coquelicot Require Import Coquelicot.
From Verif Require Import Base LinAlg QSem PyStr DihedralModel RBSeqModel RBSeqSpec StdGates AccSpec EntSpec CtmpSpec.
From Verif Require Import CountsModel MeasCalModel CharModel CharSpec CharProdProofs CharCircProofs CharIdealProofs CharDataProofs CharNoiseSpec.
Local Open Scope string_scope.
Local Open Scope list_scope.
Local Open Scope nat_scope.

(** A density matrix with population [p] of 1 and coherence [x + i y]. *)
Definition dmx (p x y : R) : dm := fun a b => match a, b with
  | false, false => RtoC (1 - p) | true, true => RtoC p | true, false => (x, y) | false, true => (x, - y)%R end.
Definition same_dm (r r' : dm) : Prop := forall a b, r a b = r' a b.
Lemma ground_dmx : same_dm ground_dm (dmx 0 0 0).
Proof. intros [|] [|]; cbn; apply injective_projections; cbn; ring. Qed.
Lemma dmx_eq p x y p' x' y' : p = p' -> x = x' -> y = y' -> same_dm (dmx p x y) (dmx p' x' y').
Proof. intros -> -> -> a b. reflexivity. Qed.

Section Noise.
Context (gmat : pystr -> list Q -> bits -> bits -> C) (omega : R) (G : char_gates gmat omega).
Context (noise : nat -> decay) (t : R).
Notation nrun := (noisy_run gmat noise t).

Lemma run_app b1 b2 s : nrun (b1 ++ b2) s = match nrun b1 s with Some s' => nrun b2 s' | None => None end.
Proof. revert s. induction b1 as [|i b1 IH]; intros s; cbn [app noisy_run]; [reflexivity|]. destruct (noisy_step gmat noise t s i); [apply IH|reflexivity]. Qed.

(** A block on the qubit [q], whose partner, if any, is another qubit. *)
Definition alone (q : nat) : Prop := partner (noise q) <> Some q.
Definition goes (body : list cinstr) (q : nat) (f : R) (r r' : dm) : Prop :=
  forall s, freq_of (noise q) s = f -> same_dm (s q) r -> exists s', nrun body s = Some s' /\ (forall k, k <> q -> s' k = s k) /\ same_dm (s' q) r'.
Lemma freq_keep q s s' : alone q -> (forall k, k <> q -> s' k = s k) -> freq_of (noise q) s' = freq_of (noise q) s.
Proof. intros A H. unfold freq_of. destruct (partner (noise q)) as [p|] eqn:E; [|reflexivity]. rewrite H; [reflexivity|]. intros ->. exact (A E). Qed.
Lemma goes_nil q f r : goes [] q f r r.
Proof. intros s _ H. exists s. auto. Qed.
Lemma goes_app b1 b2 q f r r' r'' : alone q -> goes b1 q f r r' -> goes b2 q f r' r'' -> goes (b1 ++ b2) q f r r''.
Proof.
  intros A H1 H2 s Hf Hs. destruct (H1 s Hf Hs) as (s1 & E1 & K1 & D1). destruct (H2 s1) as (s2 & E2 & K2 & D2); [rewrite (freq_keep q s s1 A K1); exact Hf|exact D1|].
  exists s2. rewrite run_app, E1. split; [exact E2|]. split; [|exact D2]. intros k Hk. rewrite K2, K1 by exact Hk. reflexivity.
Qed.
Lemma goes_ext body q f r r' r1 r1' : same_dm r1 r -> same_dm r' r1' -> goes body q f r r' -> goes body q f r1 r1'.
Proof.
  intros E E' H s Hf Hs. destruct (H s Hf) as (s' & A & B & D); [intros a b; rewrite Hs; apply E|]. exists s'. split; [exact A|]. split; [exact B|]. intros a b. rewrite D. apply E'.
Qed.
Lemma goes_bar qs body q f r r' : goes body q f r r' -> goes (CBarrier qs :: body) q f r r'.
Proof. intros H s Hf Hs. exact (H s Hf Hs). Qed.

Lemma goes_unitary name ps q f p x y r' : eqb (str name) (str "id") = false ->
  (forall a b, evolve (fun a b => gmat (str name) ps [a] [b]) (dmx p x y) a b = r' a b) -> goes [gate1 name ps q] q f (dmx p x y) r'.
Proof.
  intros Hn H s Hf Hs. eexists. cbn [noisy_run noisy_step gate1 gqubits gname gparams]. rewrite Hn. split; [reflexivity|]. split.
  - intros k Hk. destruct (Nat.eqb_spec k q); [contradiction|reflexivity].
  - rewrite Nat.eqb_refl. intros a b. rewrite <- H. unfold evolve. rewrite !Hs. reflexivity.
Qed.
Ltac cring := apply injective_projections; cbn; try ring; try field.
Lemma go_x q f p x y : goes [gate1 "x" [] q] q f (dmx p x y) (dmx (1 - p) x (- y)).
Proof.
  apply goes_unitary; [reflexivity|]. intros a b. unfold evolve. rewrite !(sg_x _ _ _ (cg_std _ _ G)). destruct a, b; cbn; cring.
Qed.
Lemma go_y q f p x y : goes [gate1 "y" [] q] q f (dmx p x y) (dmx (1 - p) (- x) y).
Proof.
  apply goes_unitary; [reflexivity|]. intros a b. unfold evolve. rewrite !(cg_y _ _ G). destruct a, b; cbn; cring.
Qed.
Lemma go_u1 k q f p x y : goes [gate1 "u1" [k] q] q f (dmx p x y) (dmx p (cos (PI * Q2R k) * x - sin (PI * Q2R k) * y) (cos (PI * Q2R k) * y + sin (PI * Q2R k) * x)).
Proof.
  apply goes_unitary; [reflexivity|]. intros a b. unfold evolve. rewrite !(cg_u1 _ _ G). unfold phase, expi.
  pose proof (sin2_cos2 (PI * Q2R k)) as E. unfold Rsqr in E.
  destruct a, b; cbn; apply injective_projections; cbn; try ring; try (replace (_ * _ + _)%R with 0%R by ring; ring).
  transitivity ((sin (PI * Q2R k) * sin (PI * Q2R k) + cos (PI * Q2R k) * cos (PI * Q2R k)) * p)%R; [ring|rewrite E; ring].
Qed.
Lemma hsq : (/ sqrt 2 * / sqrt 2 = / 2)%R.
Proof. rewrite <- Rinv_mult, sqrt_sqrt by lra. reflexivity. Qed.
Ltac hgate h E p x y :=
  match goal with
  | |- ?l = ?r => first [ solve [ring]
      | solve [transitivity (h * h * (1 + 2 * x))%R; [ring|rewrite E; field]] | solve [transitivity (h * h * (1 - 2 * x))%R; [ring|rewrite E; field]]
      | solve [transitivity (h * h * (1 - 2 * p))%R; [ring|rewrite E; field]]
      | solve [transitivity (h * h * (- (2 * y)))%R; [ring|rewrite E; field]] | solve [transitivity (h * h * (2 * y))%R; [ring|rewrite E; field]] ]
  end.
Lemma go_h q f p x y : goes [gate1 "h" [] q] q f (dmx p x y) (dmx (/ 2 - x) (/ 2 - p) (- y)).
Proof.
  apply goes_unitary; [reflexivity|]. intros a b. unfold evolve. rewrite !(sg_h _ _ _ (cg_std _ _ G)). pose proof hsq as E. set (h := (/ sqrt 2)%R) in *.
  destruct a, b; cbn; apply injective_projections; cbn; hgate h E p x y.
Qed.
Lemma go_u2 q f p x y : goes [gate1 "u2" [0%Q; 0%Q] q] q f (dmx p x y) (dmx (/ 2 + x) (/ 2 - p) y).
Proof.
  apply goes_unitary; [reflexivity|]. intros a b. unfold evolve. rewrite !(u2_00 gmat omega G). pose proof hsq as E. unfold hs. set (h := (/ sqrt 2)%R) in *.
  destruct a, b; cbn; apply injective_projections; cbn; hgate h E p x y.
Qed.

(** Waiting. *)
Lemma go_wait q f p x y : let e1 := exp (- (relax (noise q) * t)) in let e2 := exp (- (dephase (noise q) * t)) in let w := (2 * PI * f * t)%R in
  goes [gate1 "id" [] q] q f (dmx p x y) (dmx (e1 * p) (e2 * (cos w * x - sin w * y)) (e2 * (cos w * y + sin w * x))).
Proof.
  intros e1 e2 w s Hf Hs. eexists. cbn [noisy_run noisy_step gate1 gqubits gname gparams]. split; [reflexivity|]. split.
  - intros k Hk. destruct (Nat.eqb_spec k q); [contradiction|reflexivity].
  - rewrite Nat.eqb_refl. intros a b. change (eqb (str "id") (str "id")) with true. cbv iota. rewrite Hf. unfold wait. rewrite !Hs. fold e1 e2 w.
    unfold dmx, expi. rewrite cos_neg, sin_neg. destruct a, b; cbn; apply injective_projections; cbn; ring.
Qed.
Lemma go_pad q f p a th k : alone q -> let e1 := exp (- (relax (noise q) * (INR k * t))) in let e2 := exp (- (dephase (noise q) * (INR k * t))) in
  goes (pad_id q k) q f (dmx p (a * cos th) (a * sin th)) (dmx (e1 * p) (e2 * a * cos (th + INR k * (2 * PI * f * t))) (e2 * a * sin (th + INR k * (2 * PI * f * t)))).
Proof.
  intros A. cbv zeta. unfold pad_id. eapply goes_app; [exact A| |apply goes_bar, goes_nil].
  induction k as [|k IH].
  - unfold times. cbn [repeat concat INR]. eapply goes_ext; [|intros ? ?; reflexivity|apply goes_nil]. rewrite !Rmult_0_l, !Rmult_0_r, Ropp_0, exp_0, Rplus_0_r. apply dmx_eq; ring.
  - replace (times (S k) [CBarrier [q]; gate1 "id" [] q]) with (times k [CBarrier [q]; gate1 "id" [] q] ++ [CBarrier [q]; gate1 "id" [] q])
      by (unfold times; cbn [repeat]; rewrite repeat_cons, concat_app; cbn [concat]; rewrite app_nil_r; reflexivity).
    eapply goes_app; [exact A|exact IH|]. apply goes_bar. eapply goes_ext; [intros ? ?; reflexivity| |apply go_wait].
    rewrite S_INR. assert (Ee : forall r, exp (- (r * ((INR k + 1) * t))) = (exp (- (r * (INR k * t))) * exp (- (r * t)))%R) by (intros r; rewrite <- exp_plus; f_equal; ring).
    rewrite !Ee. replace (th + (INR k + 1) * (2 * PI * f * t))%R with (th + INR k * (2 * PI * f * t) + 2 * PI * f * t)%R by ring.
    rewrite (cos_plus (_ + _)%R (2 * PI * f * t)), (sin_plus (_ + _)%R (2 * PI * f * t)). apply dmx_eq; ring.
Qed.

(** The three kinds of blocks. *)
Lemma go_ground q f body r' : goes body q f (dmx 0 0 0) r' -> goes body q f ground_dm r'.
Proof. apply goes_ext; [apply ground_dmx|intros ? ?; reflexivity]. Qed.
Lemma go_t1 q f len : alone q -> exists x y, goes (gate1 "x" [] q :: pad_id q len) q f ground_dm (dmx (exp (- (relax (noise q) * (INR len * t)))) x y).
Proof.
  intros A. do 2 eexists. apply go_ground. change (gate1 "x" [] q :: pad_id q len) with ([gate1 "x" [] q] ++ pad_id q len). eapply goes_app; [exact A|apply go_x|].
  eapply goes_ext; [| |apply (go_pad q f 1 0 0 len A)]; [apply dmx_eq; ring|apply dmx_eq; ring || reflexivity].
Qed.
Lemma go_ramsey q f len k : alone q -> exists x y,
  goes (ramsey q len k) q f ground_dm (dmx (/ 2 - exp (- (dephase (noise q) * (INR len * t))) * / 2 * cos (INR len * (2 * PI * f * t) + PI * Q2R k)) x y).
Proof.
  intros A. do 2 eexists. apply go_ground. unfold ramsey. change (gate1 "h" [] q :: ?l) with ([gate1 "h" [] q] ++ l). eapply goes_app; [exact A|apply go_h|].
  eapply goes_app; [exact A| |].
  - eapply goes_ext; [|intros ? ?; reflexivity|apply (go_pad q f (/2) (/2) 0 len A)]. rewrite cos_0, sin_0. apply dmx_eq; field.
  - change [gate1 "u1" [k] q; gate1 "h" [] q] with ([gate1 "u1" [k] q] ++ [gate1 "h" [] q]). eapply goes_app; [exact A|apply go_u1|].
    eapply goes_ext; [intros ? ?; reflexivity| |apply go_h]. apply dmx_eq; [|reflexivity|reflexivity].
    rewrite Rplus_0_l, cos_plus. ring.
Qed.
Lemma go_echo_gate alt e q f p a th : goes [echo_gate alt e q] q f (dmx p (a * cos th) (a * sin th)) (dmx (1 - p) (a * cos (if is_y alt e then PI - th else - th)) (a * sin (if is_y alt e then PI - th else - th))).
Proof.
  unfold echo_gate, is_y. destruct (alt && (e mod 2 =? 0)); cbn [negb].
  - eapply goes_ext; [intros ? ?; reflexivity| |apply go_x]. rewrite cos_neg, sin_neg. apply dmx_eq; ring.
  - eapply goes_ext; [intros ? ?; reflexivity| |apply go_y]. rewrite Rtrigo_facts.cos_pi_minus, Rtrigo_facts.sin_pi_minus. apply dmx_eq; ring.
Qed.
Lemma go_echoes q f len alt ids : alone q -> forall p a th, exists p',
  goes (flat_map (fun echoid => pad_id q (2 * len) ++ [echo_gate alt echoid q]) ids) q f
    (dmx p (a * cos (th - INR len * (2 * PI * f * t))) (a * sin (th - INR len * (2 * PI * f * t))))
    (let a' := (exp (- (dephase (noise q) * (INR (length ids * (2 * len)) * t))) * a)%R in
     dmx p' (a' * cos (azimuth alt ids th - INR len * (2 * PI * f * t))) (a' * sin (azimuth alt ids th - INR len * (2 * PI * f * t)))).
Proof.
  intros A. induction ids as [|e ids IH]; intros p a th.
  - exists p. cbv zeta. cbn [flat_map azimuth length Nat.mul INR]. eapply goes_ext; [intros ? ?; reflexivity| |apply goes_nil]. rewrite Rmult_0_l, Rmult_0_r, Ropp_0, exp_0. apply dmx_eq; ring.
  - set (w := (INR len * (2 * PI * f * t))%R) in *.
    edestruct IH as [p' H]. exists p'. cbv zeta. cbn [flat_map azimuth]. eapply goes_app; [exact A| |].
    + eapply goes_app; [exact A|apply go_pad; exact A|]. apply go_echo_gate.
    + eapply goes_ext; [| |exact H].
      * apply dmx_eq; [reflexivity| |].
        -- f_equal. instantiate (1 := (if is_y alt e then PI - th else - th)%R). f_equal. unfold w. rewrite mult_INR. cbn [INR]. destruct (is_y alt e); ring.
        -- f_equal. f_equal. unfold w. rewrite mult_INR. cbn [INR]. destruct (is_y alt e); ring.
      * cbn [length].
        assert (Ee : exp (- (dephase (noise q) * (INR (S (length ids) * (2 * len)) * t))) = (exp (- (dephase (noise q) * (INR (length ids * (2 * len)) * t))) * exp (- (dephase (noise q) * (INR (2 * len) * t))))%R).
        { rewrite <- exp_plus. f_equal. change (S (length ids) * (2 * len)) with (2 * len + length ids * (2 * len)). rewrite plus_INR. ring. }
        rewrite Ee. apply dmx_eq; ring.
Qed.
Lemma go_echo q f len n alt : alone q -> 1 <= n -> exists x y,
  goes (echo q len n alt) q f ground_dm
    (dmx (/ 2 + exp (- (dephase (noise q) * (INR (n * (2 * len)) * t))) * / 2 * (if Nat.even (echo_ys n alt) then 1 else -1)) x y).
Proof.
  intros A Hn. set (w := (INR len * (2 * PI * f * t))%R).
  destruct (go_echoes q f len alt (seq 0 (n - 1)) A (1 - exp (- (relax (noise q) * (INR len * t))) * / 2) (exp (- (dephase (noise q) * (INR len * t))) * / 2) PI) as [p' H].
  assert (Ec : cos (azimuth alt (seq 0 (n - 1)) PI) = (if Nat.even (echo_ys n alt) then 1 else -1)%R).
  { rewrite cos_azimuth, count_y, cos_PI. unfold echo_ys. destruct alt.
    + replace (1 + (n - 1) / 2) with (S ((n - 1) / 2)) by lia. rewrite Nat.even_succ, <- Nat.negb_even. destruct (Nat.even _); cbn [negb]; lra.
    + destruct n as [|n]; [lia|]. replace (S n - 1) with n by lia. rewrite Nat.even_succ, <- Nat.negb_even. destruct (Nat.even _); cbn [negb]; lra. }
  do 2 eexists. apply go_ground. unfold echo. change (gate1 "u2" [0%Q; 0%Q] q :: ?l) with ([gate1 "u2" [0%Q; 0%Q] q] ++ l).
  eapply goes_app; [exact A|apply go_u2|]. eapply goes_app; [exact A| |].
  { eapply goes_ext; [|intros ? ?; reflexivity|apply (go_pad q f (/2) (/2) 0 len A)]. rewrite cos_0, sin_0. apply dmx_eq; field. }
  eapply goes_app; [exact A|apply go_y|]. eapply goes_app; [exact A| |].
  { eapply goes_ext; [|intros ? ?; reflexivity|exact H]. fold w. rewrite Rplus_0_l, Rtrigo_facts.cos_pi_minus, Rtrigo_facts.sin_pi_minus. apply dmx_eq; ring. }
  cbv zeta. eapply goes_app; [exact A|apply go_pad; exact A|].
  eapply goes_ext; [intros ? ?; reflexivity| |apply go_u2]. fold w. apply dmx_eq; [|reflexivity|reflexivity].
  replace (azimuth alt (seq 0 (n - 1)) PI - w + w)%R with (azimuth alt (seq 0 (n - 1)) PI) by ring. rewrite Ec. f_equal. f_equal.
  rewrite <- !Rmult_assoc, <- !exp_plus. f_equal. f_equal. rewrite seq_length, !mult_INR, minus_INR by exact Hn. cbn [INR]. ring.
Qed.
End Noise.
