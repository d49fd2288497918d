(** The gates of the updated schedules (C70). *)
From Coq Require Import QArith Reals Lra Permutation Sorted.
From Coquelicot Require Import Coquelicot.
From Verif Require Import Base LinAlg PyStr EntSpec CharCircProofs PulseModel PulseSpec.
Local Open Scope list_scope.
Local Open Scope nat_scope.

(** ** Matrices *)
Lemma expi_cos a : RtoC (cos a) = Cmult (RtoC (/ 2)) (Cplus (expi a) (expi (- a))).
Proof. unfold expi, RtoC, Cmult, Cplus. cbn [fst snd]. rewrite cos_neg, sin_neg. apply injective_projections; cbn [fst snd]; field. Qed.
Lemma expi_sin a : RtoC (sin a) = Cmult (Cmult (RtoC (/ 2)) (Copp Ci)) (Cminus (expi a) (expi (- a))).
Proof. unfold expi, RtoC, Cmult, Cminus, Cplus, Copp, Ci. cbn [fst snd]. rewrite cos_neg, sin_neg. apply injective_projections; cbn [fst snd]; field. Qed.
Definition vturn (t : R) : mat2 := fun i j => if Bool.eqb i j then RtoC (/ sqrt 2) else Cmult (Cmult (RtoC (/ sqrt 2)) (Copp Ci)) (if i then expi t else expi (- t)).
Lemma conj_turn t i j : mul2 (rz2 t) (mul2 x90 (rz2 (- t))) i j = vturn t i j.
Proof.
  unfold mul2, rz2, x90, vturn. pose proof (expi_inv (t / 2)) as E. pose proof (expi_add (t / 2) (t / 2)) as E2. pose proof (expi_add (- (t / 2)) (- (t / 2))) as E3.
  replace (t / 2 + t / 2)%R with t in E2 by field. replace (- (t / 2) + - (t / 2))%R with (- t)%R in E3 by field. replace (- t / 2)%R with (- (t / 2))%R by field. rewrite Ropp_involutive.
  destruct i, j; cbn [Bool.eqb]; try rewrite E2; try rewrite E3; try ring.
  - transitivity (Cmult (Cmult (expi (t / 2)) (expi (- (t / 2)))) (RtoC (/ sqrt 2))); [ring|rewrite E; ring].
  - transitivity (Cmult (Cmult (expi (t / 2)) (expi (- (t / 2)))) (RtoC (/ sqrt 2))); [ring|rewrite E; ring].
Qed.
Lemma half_sq : Cmult (RtoC (/ sqrt 2)) (RtoC (/ sqrt 2)) = RtoC (/ 2).
Proof. rewrite <- RtoC_mult. f_equal. rewrite <- Rinv_mult, sqrt_sqrt by lra. reflexivity. Qed.
Lemma Ci_sq : Cmult Ci Ci = Copp (RtoC 1).
Proof. unfold Ci, Cmult, Copp, RtoC. cbn [fst snd]. f_equal; ring. Qed.
Lemma expi_neg_PI : expi (- PI) = Copp (RtoC 1).
Proof. unfold expi. rewrite cos_neg, sin_neg, cos_PI, sin_PI. unfold Copp, RtoC. cbn [fst snd]. f_equal; ring. Qed.
Lemma expi_neg_PI2 : expi (- (PI / 2)) = Copp Ci.
Proof. unfold expi. rewrite cos_neg, sin_neg, cos_PI2, sin_PI2. unfold Copp, Ci. cbn [fst snd]. f_equal; ring. Qed.

Lemma u3_gate th ph la : let f1 := (- la)%R in let f2 := (f1 + (- th + - PI))%R in let f3 := (f2 + (- ph + PI))%R in
  same_up_to_phase (mul2 (rz2 (- f3)) (mul2 (vturn f2) (vturn f1))) (u3_mat th ph la).
Proof.
  intros f1 f2 f3. exists (- ((la + ph) / 2))%R. set (a := (th / 2)%R). set (b := (ph / 2)%R). set (c := (la / 2)%R).
  assert (Eth : th = (a + a)%R) by (unfold a; field). assert (Eph : ph = (b + b)%R) by (unfold b; field). assert (Ela : la = (c + c)%R) by (unfold c; field).
  assert (X1 : expi f1 = Cmult (expi (- c)) (expi (- c))) by (rewrite <- expi_add; f_equal; unfold f1; lra).
  assert (X1' : expi (- f1) = Cmult (expi c) (expi c)) by (rewrite <- expi_add; f_equal; unfold f1; lra).
  assert (X2 : expi f2 = Copp (Cmult (Cmult (expi (- c)) (expi (- c))) (Cmult (expi (- a)) (expi (- a))))).
  { rewrite <- !expi_add. replace f2 with (- c + - c + (- a + - a) + - PI)%R by (unfold f2, f1; lra). rewrite expi_add, expi_neg_PI. ring. }
  assert (X2' : expi (- f2) = Copp (Cmult (Cmult (expi c) (expi c)) (Cmult (expi a) (expi a)))).
  { rewrite <- !expi_add. replace (- f2)%R with (c + c + (a + a) + PI)%R by (unfold f2, f1; lra). rewrite expi_add, expi_PI. ring. }
  assert (X3 : expi (- f3 / 2) = Cmult (Cmult (expi a) (expi b)) (expi c)) by (rewrite <- !expi_add; f_equal; unfold f3, f2, f1; lra).
  assert (X3' : expi (- (- f3 / 2)) = Cmult (Cmult (expi (- a)) (expi (- b))) (expi (- c))) by (rewrite <- !expi_add; f_equal; unfold f3, f2, f1; lra).
  assert (G : expi (- ((la + ph) / 2)) = Cmult (expi (- b)) (expi (- c))) by (rewrite <- expi_add; f_equal; lra).
  assert (P1 : expi ph = Cmult (expi b) (expi b)) by (rewrite <- expi_add; f_equal; exact Eph).
  assert (L1 : expi la = Cmult (expi c) (expi c)) by (rewrite <- expi_add; f_equal; exact Ela).
  intros i j. unfold mul2, u3_mat. fold a. rewrite (expi_cos a), (expi_sin a), (expi_add ph la), P1, L1, G.
  unfold rz2, vturn. rewrite X3, X3'. pose proof (expi_inv a) as Ia. pose proof (expi_inv b) as Ib. pose proof (expi_inv c) as Ic. pose proof half_sq as H2. pose proof Ci_sq as HI.
  destruct i, j; cbn [Bool.eqb]; rewrite ?X1, ?X1', ?X2, ?X2'; clear X1 X1' X2 X2' X3 X3' G P1 L1; generalize dependent (expi a); intros ea; generalize dependent (expi (- a)); intros ea'; generalize dependent (expi b); intros eb; generalize dependent (expi (- b)); intros eb'; generalize dependent (expi c); intros ec; generalize dependent (expi (- c)); intros ec' Ic Ib Ia; generalize dependent (RtoC (/ sqrt 2)); intros r H2; generalize dependent Ci; intros ii HI; rewrite <- H2.
  all: ring [Ia Ib Ic HI].
Qed.
Lemma u2_gate ph la : let f1 := (- la + PI / 2)%R in let f3 := (f1 + (- ph + - PI / 2))%R in
  same_up_to_phase (mul2 (rz2 (- f3)) (vturn f1)) (u2_mat ph la).
Proof.
  intros f1 f3. exists (- ((la + ph) / 2))%R. set (b := (ph / 2)%R). set (c := (la / 2)%R).
  assert (X1 : expi f1 = Cmult (Cmult (expi (- c)) (expi (- c))) Ci) by (rewrite <- expi_PI2, <- !expi_add; f_equal; unfold f1, c; lra).
  assert (X1' : expi (- f1) = Cmult (Cmult (expi c) (expi c)) (Copp Ci)) by (rewrite <- expi_neg_PI2, <- !expi_add; f_equal; unfold f1, c; lra).
  assert (X3 : expi (- f3 / 2) = Cmult (expi b) (expi c)) by (rewrite <- !expi_add; f_equal; unfold f3, f1, b, c; lra).
  assert (X3' : expi (- (- f3 / 2)) = Cmult (expi (- b)) (expi (- c))) by (rewrite <- !expi_add; f_equal; unfold f3, f1, b, c; lra).
  assert (G : expi (- ((la + ph) / 2)) = Cmult (expi (- b)) (expi (- c))) by (rewrite <- expi_add; f_equal; unfold b, c; lra).
  assert (P1 : expi ph = Cmult (expi b) (expi b)) by (rewrite <- expi_add; f_equal; unfold b; lra).
  assert (L1 : expi la = Cmult (expi c) (expi c)) by (rewrite <- expi_add; f_equal; unfold c; lra).
  assert (E4 : RtoC (cos (PI / 2 / 2)) = RtoC (/ sqrt 2)) by (f_equal; replace (PI / 2 / 2)%R with (PI / 4)%R by field; rewrite cos_PI4; field; pose proof (sqrt_lt_R0 2 ltac:(lra)); lra).
  assert (S4 : RtoC (sin (PI / 2 / 2)) = RtoC (/ sqrt 2)) by (f_equal; replace (PI / 2 / 2)%R with (PI / 4)%R by field; rewrite sin_PI4; field; pose proof (sqrt_lt_R0 2 ltac:(lra)); lra).
  intros i j. unfold mul2, u2_mat, u3_mat. rewrite E4, S4, (expi_add ph la), P1, L1, G.
  unfold rz2, vturn. rewrite X3, X3'. pose proof (expi_inv b) as Ib. pose proof (expi_inv c) as Ic. pose proof Ci_sq as HI.
  destruct i, j; cbn [Bool.eqb]; rewrite ?X1, ?X1'; clear X1 X1' X3 X3' G P1 L1; generalize dependent (expi b); intros eb; generalize dependent (expi (- b)); intros eb'; generalize dependent (expi c); intros ec; generalize dependent (expi (- c)); intros ec' Ic Ib; generalize dependent (RtoC (/ sqrt 2)); intros r _ _; generalize dependent Ci; intros ii HI.
  all: ring [Ib Ic HI].
Qed.

(** ** The order of the instructions *)
Lemma sorted_unique {A} (key : A -> nat) l l' : Permutation l l' -> StronglySorted (fun a b => key a < key b) l -> StronglySorted (fun a b => key a <= key b) l' -> l' = l.
Proof.
  revert l'. induction l as [|a l IH]; intros l' HP HS HS'; [apply Permutation_nil in HP; exact HP|].
  destruct l' as [|b l']; [apply Permutation_sym, Permutation_nil in HP; discriminate|]. inversion HS as [|? ? HS1 HF]; subst. inversion HS' as [|? ? HS1' HF']; subst.
  assert (E : b = a).
  { assert (Hb : In b (a :: l)) by (apply (Permutation_in _ (Permutation_sym HP)); left; reflexivity). destruct Hb as [<-|Hb]; [reflexivity|].
    assert (Ha : In a (b :: l')) by (apply (Permutation_in _ HP); left; reflexivity). destruct Ha as [->|Ha]; [reflexivity|]. rewrite Forall_forall in HF, HF'. specialize (HF b Hb). specialize (HF' a Ha). lia. }
  subst b. f_equal. apply IH; [apply Permutation_cons_inv in HP; exact HP|exact HS1|exact HS1'].
Qed.
Definition on_chan (ch : chan) (ti : nat * pinstr) : bool := match snd ti with Play _ c => eqb c ch | ShiftPhase _ c => eqb c ch | Acquire _ _ => false end.
Lemma drive_filter turn ch l fu : fold_left (drive_step turn ch) (map snd l) fu = fold_left (drive_step turn ch) (map snd (filter (on_chan ch) l)) fu.
Proof.
  revert fu. induction l as [|[t i] l IH]; intros fu; [reflexivity|]. cbn [map snd fold_left filter]. unfold on_chan at 1. cbn [snd]. rewrite IH.
  destruct i as [p c|x c|d cs]; cbn [drive_step]; [destruct (eqb c ch) eqn:E|destruct (eqb c ch) eqn:E|reflexivity]; try reflexivity; cbn [map snd fold_left drive_step]; rewrite E; reflexivity.
Qed.
Lemma filter_perm {A} (f : A -> bool) l l' : Permutation l l' -> Permutation (filter f l) (filter f l').
Proof.
  induction 1 as [|a l l' H IH|a b l|l l' l'' H IH H' IH']; cbn [filter]; try destruct (f a); try destruct (f b); auto using perm_nil, perm_skip, perm_swap, Permutation_refl. eapply perm_trans; eassumption.
Qed.
Lemma filter_sorted {A} (R : A -> A -> Prop) (f : A -> bool) l : StronglySorted R l -> StronglySorted R (filter f l).
Proof.
  induction 1 as [|a l H IH HF]; cbn [filter]; [constructor|]. destruct (f a); [|exact IH]. constructor; [exact IH|]. rewrite Forall_forall in *. intros x Hx. apply filter_In in Hx. apply HF, Hx.
Qed.
Lemma happens_on ch l l' l0 : happens l l' -> Permutation (filter (on_chan ch) l) l0 -> StronglySorted (fun a b => rank a < rank b) l0 -> filter (on_chan ch) l' = l0.
Proof.
  intros [HP HS] H0 S0. apply (sorted_unique rank l0); [|exact S0|apply filter_sorted; exact HS]. eapply perm_trans; [apply Permutation_sym; exact H0|]. apply filter_perm. exact HP.
Qed.
Lemma mem_false {A} `{Eqb A} (a : A) l : ~ In a l -> mem a l = false.
Proof. intros Hn. destruct (mem a l) eqn:E; [|reflexivity]. apply mem_In in E. contradiction. Qed.
Lemma filter_fc ch name phi0 t g v : NoDup g -> filter (on_chan ch) (fc name phi0 t g v) = if mem ch g then [(t, ShiftPhase (- v (str name) + phi0)%R ch)] else [].
Proof.
  unfold fc. induction g as [|c g IH]; intros Hn; [reflexivity|]. inversion Hn as [|? ? Hc Hn']; subst. cbn [map filter]. unfold on_chan at 1. cbn [snd].
  unfold mem in *. cbn [existsb]. destruct (eqb_spec c ch) as [->|Hne].
  - rewrite eqb_refl. cbn [orb]. rewrite IH by exact Hn'. fold (mem ch g). rewrite (mem_false ch g Hc). reflexivity.
  - destruct (eqb_spec ch c) as [E|_]; [congruence|]. cbn [orb]. apply IH. exact Hn'.
Qed.
(** ** The gates *)
Section Gates.
Context (turn : pulse -> mat2) (p : pulse) (ch : chan).
Context (Hturn : forall i j, turn p i j = x90 i j) (Hd : p_duration p > 0).
Lemma mul2_ext a a' b b' : (forall i j, a i j = a' i j) -> (forall i j, b i j = b' i j) -> forall i j, mul2 a b i j = mul2 a' b' i j.
Proof. intros Ha Hb i j. unfold mul2. rewrite !Ha, !Hb. reflexivity. Qed.
Lemma mul2_id a i j : mul2 a id2 i j = a i j.
Proof. unfold mul2, id2. destruct j; cbn [Bool.eqb]; ring. Qed.
Lemma played t i j : mul2 (rz2 t) (mul2 (turn p) (rz2 (- t))) i j = vturn t i j.
Proof. rewrite <- conj_turn. apply mul2_ext; [reflexivity|]. apply mul2_ext; [exact Hturn|reflexivity]. Qed.
Lemma same_ext a a' b : (forall i j, a i j = a' i j) -> same_up_to_phase a' b -> same_up_to_phase a b.
Proof. intros E (g & H). exists g. intros i j. rewrite E. apply H. Qed.
Lemma duration_one : duration [(0, Play p ch)] = p_duration p.
Proof. clear. unfold duration, stop_time. cbn. lia. Qed.
Lemma u2_schedule g v l : NoDup g -> In ch g -> happens (e_sched (u2_entry [(0, Play p ch)] g) v) l -> same_up_to_phase (drive_gate turn ch l) (u2_mat (v (str "P0")) (v (str "P1"))).
Proof.
  intros Hn Hg Hl. unfold drive_gate. rewrite drive_filter. set (la := v (str "P1")). set (ph := v (str "P0")).
  assert (Em : mem ch g = true) by (apply mem_In; exact Hg).
  rewrite (happens_on ch _ l [(0, ShiftPhase (- la + PI / 2)%R ch); (0, Play p ch); (p_duration p, ShiftPhase (- ph + - PI / 2)%R ch)] Hl).
  - cbn [map snd fold_left drive_step fst]. rewrite !eqb_refl. cbn [fst snd]. rewrite !Rplus_0_l.
    apply (same_ext _ (mul2 (rz2 (- (- la + PI / 2 + (- ph + - PI / 2)))) (vturn (- la + PI / 2)))); [|exact (u2_gate ph la)].
    apply mul2_ext; [reflexivity|]. intros i j. rewrite mul2_id. apply played.
  - cbn [u2_entry e_sched]. rewrite duration_one, !filter_app. cbn [filter]. unfold on_chan at 1. cbn [snd]. rewrite eqb_refl, !filter_fc, Em by exact Hn. cbn [app]. fold la ph. apply perm_swap.
  - repeat constructor; unfold rank; cbn [fst snd is_shift]; lia.
Qed.
Lemma u3_schedule g v l : NoDup g -> In ch g -> happens (e_sched (u3_entry [(0, Play p ch)] g) v) l -> same_up_to_phase (drive_gate turn ch l) (u3_mat (v (str "P0")) (v (str "P1")) (v (str "P2"))).
Proof.
  intros Hn Hg Hl. unfold drive_gate. rewrite drive_filter. set (th := v (str "P0")). set (ph := v (str "P1")). set (la := v (str "P2")).
  assert (Em : mem ch g = true) by (apply mem_In; exact Hg).
  rewrite (happens_on ch _ l [(0, ShiftPhase (- la + 0)%R ch); (0, Play p ch); (p_duration p, ShiftPhase (- th + - PI)%R ch); (p_duration p, Play p ch); (2 * p_duration p, ShiftPhase (- ph + PI)%R ch)] Hl).
  - cbn [map snd fold_left drive_step fst]. rewrite !eqb_refl. cbn [fst snd]. rewrite !Rplus_0_l, !Rplus_0_r.
    apply (same_ext _ (mul2 (rz2 (- (- la + (- th + - PI) + (- ph + PI)))) (mul2 (vturn (- la + (- th + - PI))) (vturn (- la))))); [|exact (u3_gate th ph la)].
    apply mul2_ext; [reflexivity|]. apply mul2_ext; [apply played|]. intros i j. rewrite mul2_id. apply played.
  - cbn [u3_entry e_sched shift map fst snd]. rewrite duration_one, !filter_app. cbn [filter]. unfold on_chan at 1 2. cbn [snd]. rewrite eqb_refl, !filter_fc, Em by exact Hn. cbn [app]. fold la ph th. rewrite Nat.add_0_l.
    eapply perm_trans; [apply perm_skip, perm_swap|]. eapply perm_trans; [apply perm_swap|]. do 2 apply perm_skip. apply perm_swap.
  - repeat constructor; unfold rank; cbn [fst snd is_shift]; lia.
Qed.
End Gates.
(** Every channel of the group gets the shifts of the drive channel, and no other channel any. *)
Lemma shifts_fc ch name phi0 t g v : NoDup g -> shifts_of (fc name phi0 t g v) ch = if mem ch g then [(t, (- v (str name) + phi0)%R)] else [].
Proof.
  unfold fc, shifts_of. induction g as [|c g IH]; intros Hn; [reflexivity|]. inversion Hn as [|? ? Hc Hn']; subst. cbn [map flat_map snd fst]. unfold mem in *. cbn [existsb]. destruct (eqb_spec c ch) as [->|Hne].
  - rewrite eqb_refl. cbn [orb]. rewrite IH by exact Hn'. fold (mem ch g). rewrite (mem_false ch g Hc). reflexivity.
  - destruct (eqb_spec ch c) as [E|_]; [congruence|]. cbn [orb app]. apply IH. exact Hn'.
Qed.
