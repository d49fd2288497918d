(** Signals of the two experiments and the fidelities reported (C73). *)
From Coq Require Import QArith Qreals Reals Lra Lia ZArith.
From Coquelicot Require Import Coquelicot.
From Verif Require Import LinAlg Base CountsModel ResultFacts QSem CtmpSpec StdGates AccSpec AccProbProofs EntGhzProofs TomoModel EntSpec EntMqcProofs CharCircProofs EntFidModel EntFidSpec EntFidProofs.
Local Open Scope list_scope.
Local Open Scope nat_scope.

(** ** Bits *)
Lemma weight_cons b x : weight (b :: x) = (if b then 1 else 0) + weight x.
Proof. unfold weight. destruct b; reflexivity. Qed.
Lemma weight_le x : weight x <= length x.
Proof. induction x as [|b x IH]; [reflexivity|]. rewrite weight_cons. cbn [length]. destruct b; lia. Qed.
Lemma weight_zero x : weight x = 0 -> x = zeros (length x).
Proof. induction x as [|b x IH]; [reflexivity|]. rewrite weight_cons. destruct b; [discriminate|]. intros H. cbn. f_equal. apply IH. exact H. Qed.
Lemma weight_full x : weight x = length x -> x = ones (length x).
Proof. induction x as [|b x IH]; [reflexivity|]. rewrite weight_cons. cbn [length]. pose proof (weight_le x). destruct b; [|lia]. intros H'. cbn. f_equal. apply IH. lia. Qed.
Lemma weight_zeros n : weight (zeros n) = 0.
Proof. induction n as [|n IH]; [reflexivity|]. cbn [zeros repeat]. rewrite weight_cons. exact IH. Qed.
Lemma weight_ones n : weight (ones n) = n.
Proof. induction n as [|n IH]; [reflexivity|]. cbn [ones repeat]. rewrite weight_cons. fold (ones n). rewrite IH. reflexivity. Qed.
Lemma flip_flip x : flip (flip x) = x.
Proof. unfold flip. rewrite map_map. rewrite (map_ext _ (fun b => b)) by apply Bool.negb_involutive. apply map_id. Qed.
Lemma length_flip x : length (flip x) = length x. Proof. apply map_length. Qed.
Lemma weight_flip x : weight (flip x) + weight x = length x.
Proof. induction x as [|b x IH]; [reflexivity|]. cbn [flip map]. fold (flip x). rewrite !weight_cons. cbn [length]. destruct b; cbn; lia. Qed.
Lemma flip_zeros n : flip (zeros n) = ones n.
Proof. induction n as [|n IH]; [reflexivity|]. cbn. f_equal. exact IH. Qed.
Lemma flip_ones n : flip (ones n) = zeros n.
Proof. rewrite <- flip_zeros. apply flip_flip. Qed.
Lemma in_zeros n : In (zeros n) (cube n). Proof. apply in_cube, length_zeros. Qed.
Lemma in_ones n : In (ones n) (cube n). Proof. apply in_cube, length_ones. Qed.
Lemma zeros_ones n : 1 <= n -> zeros n <> ones n.
Proof. destruct n; [lia|]. intros _ H. discriminate. Qed.

(** ** Parity oscillations *)
Lemma form_real {I} (idx : list I) rho u : (forall x y, In x idx -> In y idx -> rho x y = Cconj (rho y x)) -> RtoC (Re (form idx rho u)) = form idx rho u.
Proof.
  intros H. apply real_of. unfold form. rewrite conj_sum, fsum_swap. rewrite (fsum_map_ext (fun x => Cconj _) (fun x => fsum (map (fun y => Cconj (fmul (fmul (Cconj (u x)) (rho x y)) (u y))) idx))) by (intros; apply conj_sum).
  apply fsum_map_ext. intros x Hx. apply fsum_map_ext. intros y Hy. rewrite !cj_mul, cj_cj, <- (H y x) by assumption. toC. ring.
Qed.
Definition sgn (n : nat) : C := RtoC ((-1) ^ n).
Lemma sgn_S n : sgn (S n) = Copp (sgn n).
Proof. unfold sgn. cbn [pow]. rewrite RtoC_mult. replace (RtoC (-1)) with (Copp (RtoC 1)) by cring. ring. Qed.
Lemma sgn_mod n : Cmod (sgn n) = 1%R.
Proof. unfold sgn. rewrite Cmod_R. induction n as [|n IH]; [apply Rabs_R1|]. cbn [pow]. rewrite Rabs_mult, IH. replace (-1)%R with (- (1))%R by ring. rewrite Rabs_Ropp, Rabs_R1. ring. Qed.
Lemma half_sq : Cmult (RtoC (/ sqrt 2)) (RtoC (/ sqrt 2)) = RtoC (/ 2).
Proof. rewrite <- RtoC_mult. f_equal. rewrite <- Rinv_mult. rewrite sqrt_sqrt by lra. reflexivity. Qed.
Definition kern (n : nat) (phi : R) (a b : bits) : C :=
  fsum (map (fun x => fmul (sgn (weight x)) (fmul (u2_all phi x a) (Cconj (u2_all phi x b)))) (cube n)).
Definition turns (n : nat) (a : bits) : Z := (Z.of_nat n - 2 * Z.of_nat (weight a))%Z.
Lemma kern_value phi n : forall a b, length a = n -> length b = n ->
  kern n phi a b = if eqb (flip a) b then fmul (sgn n) (expi (IZR (turns n a) * phi)) else f0.
Proof.
  induction n as [|n IH]; intros a b Ha Hb.
  - destruct a, b; try discriminate. destruct (eqb_spec (flip []) ([] : bits)) as [_|E]; [|exfalso; apply E; reflexivity].
    replace (IZR (turns 0 []) * phi)%R with 0%R by (change (turns 0 []) with 0%Z; ring). rewrite expi_0. unfold kern, sgn. cbn [cube map]. rewrite fsum_cons, fsum_nil. change (weight []) with 0. cbn [u2_all pow]. rewrite cj_1. toC. ring.
  - destruct a as [|v a]; [discriminate|]. destruct b as [|w b]; [discriminate|]. injection Ha as Ha. injection Hb as Hb.
    assert (E : kern (S n) phi (v :: a) (w :: b) = fmul (fadd (fmul (u2_entry phi false v) (Cconj (u2_entry phi false w))) (Copp (fmul (u2_entry phi true v) (Cconj (u2_entry phi true w))))) (kern n phi a b)).
    { unfold kern. cbn [cube]. rewrite map_app, fsum_app, !map_map. rewrite <- fsum_map_mul, <- fsum_map_add. apply fsum_map_ext. intros x _. rewrite !weight_cons. cbn [u2_all Nat.add]. rewrite sgn_S, !cj_mul. toC. ring. }
    rewrite E, IH by assumption. clear E IH.
    assert (T : turns (S n) (v :: a) = (turns n a + (if v then -1 else 1))%Z) by (unfold turns; rewrite weight_cons; destruct v; lia).
    rewrite T, plus_IZR, Rmult_plus_distr_r, expi_add, sgn_S. cbn [flip map]. fold (flip a).
    assert (Q : eqb (negb v :: flip a) (w :: b) = xorb v w && eqb (flip a) b).
    { destruct (eqb_spec (negb v :: flip a) (w :: b)) as [E|E]; destruct (eqb_spec (flip a) b) as [E'|E']; destruct v, w; cbn in *; try reflexivity; try (injection E as E; congruence); try congruence. }
    rewrite Q. unfold u2_entry. rewrite ?cj_mul. pose proof half_sq as Hh. replace (Cconj (RtoC (/ sqrt 2))) with (RtoC (/ sqrt 2)) by cring. pose proof (expi_inv phi) as Ei.
    destruct v, w; cbn [xorb andb]; destruct (eqb (flip a) b); toC; try rewrite !Rmult_1_l; try (replace (IZR (-1) * phi)%R with (- phi)%R by ring); rewrite ?conj_expi, ?Ropp_involutive, ?cj_1; set (h := RtoC (/ sqrt 2)) in *.
    all: try (replace (Cconj (RtoC 1)) with (RtoC 1) by cring); try (replace (Cconj (Copp (expi (- phi)))) with (Copp (expi phi)) by (rewrite <- (Ropp_involutive phi) at 1; rewrite <- conj_expi; cring)).
    all: try ring.
    + transitivity (Cmult (Cmult (Cmult h h) (Cplus (Cmult (expi (- phi)) (expi phi)) (Copp (RtoC 1)))) (Cmult (sgn n) (expi (IZR (turns n a) * phi)))); [ring|]. rewrite (Cmult_comm (expi (- phi))), Ei. ring.
    + transitivity (Cmult (Cmult (Cplus (Cmult h h) (Cmult h h)) (Copp (expi (- phi)))) (Cmult (sgn n) (expi (IZR (turns n a) * phi)))); [ring|]. rewrite Hh. replace (Cplus (RtoC (/ 2)) (RtoC (/ 2))) with (RtoC 1) by (rewrite <- RtoC_plus; f_equal; field). ring.
    + transitivity (Cmult (Cmult (Cplus (Cmult h h) (Cmult h h)) (Copp (expi phi))) (Cmult (sgn n) (expi (IZR (turns n a) * phi)))); [ring|]. rewrite Hh. replace (Cplus (RtoC (/ 2)) (RtoC (/ 2))) with (RtoC 1) by (rewrite <- RtoC_plus; f_equal; field). ring.
    + transitivity (Cmult (Cmult (Cmult h h) (Cplus (RtoC 1) (Copp (Cmult (expi phi) (expi (- phi)))))) (Cmult (sgn n) (expi (IZR (turns n a) * phi)))); [ring|]. rewrite Ei. ring.
Qed.
Definition herm (n : nat) (rho : bits -> bits -> C) : Prop := forall x y, In x (cube n) -> In y (cube n) -> rho x y = Cconj (rho y x).
Lemma parity_harmonics n rho : herm n rho -> harmonics (parity_signal n rho) (cube n) (fun a => fmul (sgn n) (rho a (flip a))) (turns n).
Proof.
  intros Hh phi. unfold parity_signal. rewrite RtoC_fsum.
  rewrite (fsum_map_ext _ (fun x => fsum (map (fun a => fsum (map (fun b => fmul (rho a b) (fmul (sgn (weight x)) (fmul (u2_all phi x a) (Cconj (u2_all phi x b))))) (cube n))) (cube n)))).
  - rewrite fsum_swap. apply fsum_map_ext. intros a Ha. rewrite fsum_swap.
    rewrite (fsum_map_ext _ (fun b => if eqb (flip a) b then fmul (rho a b) (fmul (sgn n) (expi (IZR (turns n a) * phi))) else f0)).
    + rewrite fsum_pick by (auto using cube_NoDup; apply in_cube; rewrite length_flip; apply in_cube; exact Ha). toC. ring.
    + intros b Hb. rewrite fsum_map_mul. fold (kern n phi a b). rewrite kern_value by (apply in_cube; assumption). destruct (eqb (flip a) b); [reflexivity|toC; ring].
  - intros x Hx. unfold outcome_prob. rewrite RtoC_mult, form_real by exact Hh. fold (sgn (weight x)). unfold form. change Cmult with (@fmul C _). rewrite <- fsum_map_mul. apply fsum_map_ext. intros a Ha. rewrite <- fsum_map_mul. apply fsum_map_ext. intros b Hb. rewrite cj_cj. toC. ring.
Qed.
Lemma fsum_one {I} {HI : Eqb I} (l : list I) a (f : I -> C) : NoDup l -> In a l -> (forall y, In y l -> y <> a -> f y = f0) -> fsum (map f l) = f a.
Proof.
  intros Hn Ha H. rewrite (fsum_map_ext _ (fun y => if eqb a y then f y else f0)); [apply fsum_pick; assumption|]. intros y Hy. destruct (eqb_spec a y); [reflexivity|]. apply H; [exact Hy|congruence].
Qed.
Lemma mod_zero a b : (0 < b)%Z -> (a mod b =? 0)%Z = true -> exists k, a = (b * k)%Z.
Proof. intros Hb H. apply Z.eqb_eq in H. exists (a / b)%Z. apply Z_div_exact_full_2; lia. Qed.
Lemma parity_component n N rho : enough_phases N n -> component N n (cube n) (fun a => fmul (sgn n) (rho a (flip a))) (turns n) = fmul (sgn n) (rho (zeros n) (ones n)).
Proof.
  intros [HN Hw]. unfold component. rewrite (fsum_one (cube n) (zeros n)).
  - unfold turns. rewrite weight_zeros, flip_zeros. replace (Z.of_nat n - 2 * Z.of_nat 0 - Z.of_nat n)%Z with 0%Z by lia. rewrite Z.mod_0_l by lia. reflexivity.
  - apply cube_NoDup.
  - apply in_zeros.
  - intros a Ha Hne. apply in_cube in Ha. destruct ((turns n a - Z.of_nat n) mod Z.of_nat N =? 0)%Z eqn:E; [exfalso|reflexivity]. apply mod_zero in E; [|lia]. destruct E as (k & E). unfold turns in E.
    pose proof (weight_le a) as L. destruct (Nat.eq_dec (weight a) 0) as [Z0|Z0]; [apply weight_zero in Z0; rewrite Ha in Z0; contradiction|]. apply (Hw (weight a)); [lia|]. exists (Z.to_nat (- k)). nia.
Qed.

(** ** Multiple quantum coherence *)
Definition pairs (n : nat) : list (bits * bits) := flat_map (fun x => map (pair x) (cube n)) (cube n).
Lemma in_pairs n p : In p (pairs n) <-> length (fst p) = n /\ length (snd p) = n.
Proof.
  unfold pairs. rewrite in_flat_map. split.
  - intros (x & Hx & Hp). apply in_map_iff in Hp. destruct Hp as (y & <- & Hy). apply in_cube in Hx. apply in_cube in Hy. auto.
  - destruct p as [x y]. cbn. intros [Hx Hy]. exists x. split; [apply in_cube; exact Hx|]. apply in_map, in_cube. exact Hy.
Qed.
Lemma nodup_pairs n : NoDup (pairs n).
Proof.
  unfold pairs. pose proof (cube_NoDup n) as H. revert H. generalize (cube n) at 1 3. induction l as [|x l IH]; intros H; [constructor|]. inversion H as [|? ? Hx Hl]; subst. cbn [flat_map]. 
  assert (A : NoDup (map (pair x) (cube n))) by (apply FinFun.Injective_map_NoDup; [intros u v E; congruence|apply cube_NoDup]).
  revert A. generalize (map (pair x) (cube n)) as m, (in_map_iff (pair x) (cube n)). intros m Hm A.
  assert (D : forall p, In p m -> ~ In p (flat_map (fun x => map (pair x) (cube n)) l)).
  { intros p Hp Hq. apply in_flat_map in Hq. destruct Hq as (z & Hz & Hq). apply in_map_iff in Hq. destruct Hq as (y & <- & _). apply Hm in Hp. destruct Hp as (y' & E & _). injection E as -> _. contradiction. }
  clear Hm. induction m as [|p m IHm]; [apply IH, Hl|]. inversion A; subst. cbn. constructor; [rewrite in_app_iff; intros [B|B]; [contradiction|exact (D p (or_introl eq_refl) B)]|]. apply IHm; [assumption|intros q Hq; apply D; right; exact Hq].
Qed.
Lemma fsum_pairs (f : bits * bits -> C) n : fsum (map f (pairs n)) = fsum (map (fun x => fsum (map (fun y => f (x, y)) (cube n))) (cube n)).
Proof. unfold pairs. rewrite fsum_flat_map. apply fsum_map_ext. intros x _. rewrite map_map. reflexivity. Qed.
Definition mc (rho : bits -> bits -> C) (p : bits * bits) : C := fmul (rho (flip (fst p)) (flip (snd p))) (rho (snd p) (fst p)).
Definition md (p : bits * bits) : Z := (Z.of_nat (weight (flip (fst p))) - Z.of_nat (weight (flip (snd p))))%Z.
Lemma flip_in n x : In x (cube n) -> In (flip x) (cube n).
Proof. rewrite !in_cube, length_flip. auto. Qed.
Lemma mqc_harmonics n rho : herm n rho -> harmonics (mqc_signal n rho) (pairs n) (mc rho) md.
Proof.
  intros Hh phi. unfold mqc_signal. rewrite real_of.
  - rewrite fsum_pairs. apply fsum_map_ext. intros x Hx. apply fsum_map_ext. intros y Hy. unfold rotated, mc, md. cbn [fst snd]. rewrite minus_IZR, <- !INR_IZR_INZ. unfold Rminus. rewrite Rmult_plus_distr_r, Ropp_mult_distr_l_reverse, expi_add. toC. ring.
  - rewrite conj_sum, fsum_swap. rewrite (fsum_map_ext (fun x => Cconj _) (fun x => fsum (map (fun y => Cconj (fmul (rotated phi rho x y) (rho y x))) (cube n)))) by (intros; apply conj_sum).
    apply fsum_map_ext. intros x Hx. apply fsum_map_ext. intros y Hy. unfold rotated. rewrite !cj_mul, !conj_expi, Ropp_involutive, <- (Hh (flip y) (flip x)), <- (Hh x y) by auto using flip_in. toC. ring.
Qed.
Lemma mqc_component n N rho : 2 * n < N -> component N n (pairs n) (mc rho) md = fmul (rho (ones n) (zeros n)) (rho (ones n) (zeros n)).
Proof.
  intros HN. unfold component. rewrite (fsum_one (pairs n) (zeros n, ones n)).
  - unfold md, mc. cbn [fst snd]. rewrite flip_zeros, flip_ones, weight_zeros, weight_ones. replace (Z.of_nat n - Z.of_nat 0 - Z.of_nat n)%Z with 0%Z by lia. rewrite Z.mod_0_l by lia. reflexivity.
  - apply nodup_pairs.
  - apply in_pairs. cbn. rewrite length_zeros, length_ones. auto.
  - intros [x y] Hp Hne. apply in_pairs in Hp. cbn in Hp. destruct Hp as [Hx Hy]. destruct (_ =? 0)%Z eqn:E; [exfalso|reflexivity]. apply mod_zero in E; [|lia]. destruct E as (k & E). unfold md in E. cbn [fst snd] in E.
    pose proof (weight_flip x). pose proof (weight_flip y). pose proof (weight_le x). pose proof (weight_le y). assert (k = 0%Z) by nia. subst k. 
    assert (Wx : weight x = 0) by lia. assert (Wy : weight y = length y) by lia. apply weight_zero in Wx. apply weight_full in Wy. rewrite Hx in Wx. rewrite Hy in Wy. apply Hne. rewrite Wx, Wy. reflexivity.
Qed.
Lemma two_le {A} (f : A -> R) l a b : (forall x, In x l -> (0 <= f x)%R) -> In a l -> In b l -> a <> b -> (f a + f b <= fsum (HF:=Fld_R) (map f l))%R.
Proof.
  assert (P : forall l : list A, (forall x, In x l -> (0 <= f x)%R) -> (0 <= fsum (HF:=Fld_R) (map f l))%R).
  { induction l0 as [|x l0 IH]; intros H; [cbn; apply Rle_refl|]. cbn [map]. rewrite fsum_cons. pose proof (H x (or_introl eq_refl)). specialize (IH (fun y Hy => H y (or_intror Hy))). change (0 <= f x + fsum (HF:=Fld_R) (map f l0))%R. lra. }
  assert (O : forall c (l : list A), (forall x, In x l -> (0 <= f x)%R) -> In c l -> (f c <= fsum (HF:=Fld_R) (map f l))%R).
  { induction l0 as [|x l0 IH]; intros H Hc; [destruct Hc|]. cbn [map]. rewrite fsum_cons. change (f c <= f x + fsum (HF:=Fld_R) (map f l0))%R. pose proof (H x (or_introl eq_refl)). destruct Hc as [->|Hc]; [pose proof (P l0 (fun y Hy => H y (or_intror Hy))); lra|]. specialize (IH (fun y Hy => H y (or_intror Hy)) Hc). lra. }
  induction l as [|x l IH]; intros H Ha Hb Hab; [destruct Ha|]. cbn [map]. rewrite fsum_cons. change (f a + f b <= f x + fsum (HF:=Fld_R) (map f l))%R.
  destruct Ha as [->|Ha]; destruct Hb as [->|Hb]; [congruence| | |].
  - pose proof (O b l (fun y Hy => H y (or_intror Hy)) Hb). lra.
  - pose proof (O a l (fun y Hy => H y (or_intror Hy)) Ha). lra.
  - specialize (IH (fun y Hy => H y (or_intror Hy)) Ha Hb Hab). pose proof (H x (or_introl eq_refl)). lra.
Qed.
Lemma mqc_zero n N rho : n < N -> 1 <= n -> herm n rho -> flip_invariant n rho ->
  exists r, component N 0 (pairs n) (mc rho) md = RtoC r /\ (Re (rho (zeros n) (zeros n)) ^ 2 + Re (rho (ones n) (ones n)) ^ 2 <= r)%R.
Proof.
  intros HN Hn Hh Hf. exists (fsum (HF:=Fld_R) (map (fun p => if (md p mod Z.of_nat N =? 0)%Z then sqmod (rho (fst p) (snd p)) else 0%R) (pairs n))). split.
  - unfold component. rewrite RtoC_fsum. apply fsum_map_ext. intros [x y] Hp. apply in_pairs in Hp. cbn in Hp. destruct Hp as [Hx Hy]. rewrite Z.sub_0_r. destruct (_ =? 0)%Z; [|reflexivity]. unfold mc. cbn [fst snd]. rewrite Hf by assumption. rewrite (Hh y x) by (apply in_cube; assumption). toC. unfold sqmod. cring.
  - eapply Rle_trans; [|apply (two_le _ (pairs n) (zeros n, zeros n) (ones n, ones n))].
    + unfold md. cbn [fst snd]. rewrite !Z.sub_diag, Z.mod_0_l by lia. cbn [Z.eqb]. unfold sqmod, Re. cbn [pow]. pose proof (Rle_0_sqr (snd (rho (zeros n) (zeros n)))). pose proof (Rle_0_sqr (snd (rho (ones n) (ones n)))). unfold Rsqr in *. lra.
    + intros p _. destruct (_ =? 0)%Z; [|lra]. unfold sqmod. nra.
    + apply in_pairs. cbn. rewrite length_zeros. auto.
    + apply in_pairs. cbn. rewrite length_ones. auto.
    + intros E. injection E as E _. exact (zeros_ones n Hn E).
Qed.

(** ** What is reported *)
Lemma item_ok (l : list C) k z : nth_error l k = Some z -> item l k = Ok z.
Proof. intros H. unfold item. rewrite H. reflexivity. Qed.
Lemma dget_e_ok {K V} `{Eqb K} (d : list (K * V)) k v : dget d k = Some v -> dget_e d k = Ok v.
Proof. unfold dget_e. intros ->. reflexivity. Qed.
Lemma po_fidelity n N rho rho_m P x : 1 <= n -> enough_phases N n -> qstate n rho -> qstate n rho_m -> populations P n rho rho_m -> length x = N ->
  exists i, get_fourier_info (str "po") n x (sampled N (parity_signal n rho)) (Some (sampled N (parity_signal n rho_m))) (Some P) = Ok (PoInfo i) /\
    ghz_fidelity n rho (p_F i) /\ ghz_fidelity n rho_m (p_F_m i) /\ Cmod (p_In i) = Cmod (rho (zeros n) (ones n)) /\ Cmod (p_In_m i) = Cmod (rho_m (zeros n) (ones n)).
Proof.
  intros Hn HN Hr Hm [E0 E1 E2 E3] Hx. assert (HN0 : 0 < N) by (destruct HN; lia).
  destruct (fft_component N _ _ _ _ HN0 (parity_harmonics n rho (st_herm _ _ Hr))) as (l & El & Ll & Nl). destruct (fft_component N _ _ _ _ HN0 (parity_harmonics n rho_m (st_herm _ _ Hm))) as (l' & El' & Ll' & Nl').
  unfold get_fourier_info. rewrite (dget_e_ok _ _ _ E0), (dget_e_ok _ _ _ E1), (dget_e_ok _ _ _ E2), (dget_e_ok _ _ _ E3). cbn [bind]. rewrite Hx. destruct (Nat.eqb_spec N 0) as [Z0|_]; [lia|]. rewrite El, El'. cbn [bind]. rewrite !length_sampled, Nat.eqb_refl. cbn [negb orb].
  destruct (eqb_spec (str "po") (str "mqc")) as [A|_]; [discriminate|]. destruct (eqb_spec (str "po") (str "po")) as [_|A]; [|congruence].
  rewrite (item_ok _ _ _ (Nl n (proj1 HN))), (item_ok _ _ _ (Nl' n (proj1 HN))). cbn [bind]. eexists. split; [reflexivity|]. cbn [p_F p_F_m p_In p_In_m]. rewrite !parity_component by exact HN. toC. rewrite !Cmod_mult, sgn_mod, !Rmult_1_l.
  assert (B : forall r, qstate n r -> ghz_fidelity n r (/ 2 * (population r (zeros n) + population r (ones n) + 2 * Cmod (r (zeros n) (ones n))))%R).
  { intros r Hq. pose proof (best_value (cube n) (zeros n) (ones n) (cube_NoDup n) (in_zeros n) (in_ones n) (zeros_ones n Hn) r Hq) as V. unfold ghz_fidelity, population. 
    replace (/ 2 * (Re (r (zeros n) (zeros n)) + Re (r (ones n) (ones n)) + 2 * Cmod (r (zeros n) (ones n))))%R with (/ 2 * (Re (r (zeros n) (zeros n)) + Re (r (ones n) (ones n))) + Cmod (r (zeros n) (ones n)))%R by field. exact V. }
  auto.
Qed.
(** The bounds, for one state. *)
Lemma mqc_bounds n N rho f : 1 <= n -> 2 * n < N -> qstate n rho -> ghz_fidelity n rho f ->
  sqrt (Cmod (component N n (pairs n) (mc rho) md)) = Cmod (rho (zeros n) (ones n)) /\
  f = (/ 2 * (population rho (zeros n) + population rho (ones n)) + Cmod (rho (zeros n) (ones n)))%R /\
  (2 * Cmod (rho (zeros n) (ones n)) <= f)%R /\
  (flip_invariant n rho -> f <= Cmod (rho (zeros n) (ones n)) + sqrt (Cmod (component N 0 (pairs n) (mc rho) md) / 2))%R.
Proof.
  intros Hn HN Hr Hf. pose proof (zeros_ones n Hn) as Z.
  assert (Ef : f = (/ 2 * (population rho (zeros n) + population rho (ones n)) + Cmod (rho (zeros n) (ones n)))%R).
  { exact (best_unique (cube n) (zeros n) (ones n) rho f _ Hf (best_value (cube n) (zeros n) (ones n) (cube_NoDup n) (in_zeros n) (in_ones n) Z rho Hr)). }
  split; [|split; [exact Ef|split]].
  - rewrite mqc_component by exact HN. toC. rewrite Cmod_mult, sqrt_square by apply Cmod_ge_0. rewrite (st_herm _ _ Hr (ones n) (zeros n)) by auto using in_zeros, in_ones. apply Cmod_conj.
  - pose proof (coherence_le (cube n) (zeros n) (ones n) (cube_NoDup n) (in_zeros n) (in_ones n) Z rho Hr) as L. rewrite Ef. unfold population. lra.
  - intros Hi. destruct (mqc_zero n N rho ltac:(lia) Hn (st_herm _ _ Hr) Hi) as (r & -> & L). rewrite Ef, Cmod_R. unfold population. destruct (pop_nonneg (cube n) (zeros n) (ones n) (cube_NoDup n) (in_zeros n) (in_ones n) Z rho Hr) as [P0 P1].
    set (p := Re (rho (zeros n) (zeros n))) in *. set (q := Re (rho (ones n) (ones n))) in *. rewrite Rabs_pos_eq by nra. rewrite Rplus_comm. apply Rplus_le_compat_l.
    rewrite <- (sqrt_square (/ 2 * (p + q))) by lra. apply sqrt_le_1_alt. pose proof (Rle_0_sqr (p - q)) as Sq. unfold Rsqr in Sq. cbn [pow] in L. lra.
Qed.
Lemma mqc_fidelity n N rho rho_m P x f f_m : 1 <= n -> 2 * n < N -> qstate n rho -> qstate n rho_m -> populations P n rho rho_m -> length x = N ->
  ghz_fidelity n rho f -> ghz_fidelity n rho_m f_m ->
  exists i, get_fourier_info (str "mqc") n x (sampled N (mqc_signal n rho)) (Some (sampled N (mqc_signal n rho_m))) (Some P) = Ok (MqcInfo i) /\
    m_F_m i = f_m /\ m_F i = (f + / 2 * (population rho_m (zeros n) + population rho_m (ones n) - (population rho (zeros n) + population rho (ones n))))%R /\
    (m_LB i <= f)%R /\ (m_LB_m i <= f_m)%R /\ (flip_invariant n rho -> f <= m_UB i)%R /\ (flip_invariant n rho_m -> f_m <= m_UB_m i)%R.
Proof.
  intros Hn HN Hr Hm [E0 E1 E2 E3] Hx Ff Fm. assert (HN0 : 0 < N) by lia.
  destruct (fft_component N _ _ _ _ HN0 (mqc_harmonics n rho (st_herm _ _ Hr))) as (l & El & Ll & Nl). destruct (fft_component N _ _ _ _ HN0 (mqc_harmonics n rho_m (st_herm _ _ Hm))) as (l' & El' & Ll' & Nl').
  unfold get_fourier_info. rewrite (dget_e_ok _ _ _ E0), (dget_e_ok _ _ _ E1), (dget_e_ok _ _ _ E2), (dget_e_ok _ _ _ E3). cbn [bind]. rewrite Hx. destruct (Nat.eqb_spec N 0) as [Z0|_]; [lia|]. rewrite El, El'. cbn [bind]. rewrite !length_sampled, Nat.eqb_refl. cbn [negb orb].
  destruct (eqb_spec (str "mqc") (str "mqc")) as [_|A]; [|congruence].
  rewrite (item_ok _ _ _ (Nl n ltac:(lia))), (item_ok _ _ _ (Nl' n ltac:(lia))), (item_ok _ _ _ (Nl 0 HN0)), (item_ok _ _ _ (Nl' 0 HN0)). cbn [bind]. eexists. split; [reflexivity|]. cbn [m_F m_F_m m_LB m_LB_m m_UB m_UB_m].
  destruct (mqc_bounds n N rho f Hn HN Hr Ff) as (-> & Ef & B1 & B2). destruct (mqc_bounds n N rho_m f_m Hn HN Hm Fm) as (-> & Efm & B3 & B4).
  split; [lra|]. split; [lra|]. auto.
Qed.

(** [rho_to_fidelity]. *)
Lemma rho_fidelity rho d : 2 <= d -> m_rows rho = d -> m_cols rho = d -> state (seq 0 d) (m_at rho) ->
  exists f, rho_to_fidelity rho = Ok f /\ best_fidelity (seq 0 d) 0 (d - 1) (m_at rho) f.
Proof.
  intros Hd Er Ec Hs. unfold rho_to_fidelity. rewrite Er, Ec. destruct (Nat.eqb_spec d 0) as [E|_]; [lia|]. cbn [orb]. eexists. split; [reflexivity|].
  assert (I0 : In 0 (seq 0 d)) by (apply in_seq; lia). assert (I1 : In (d - 1) (seq 0 d)) by (apply in_seq; lia). assert (Hne : 0 <> d - 1) by lia.
  pose proof (best_value (seq 0 d) 0 (d - 1) (seq_NoDup d 0) I0 I1 Hne _ Hs) as V. destruct (pop_nonneg (seq 0 d) 0 (d - 1) (seq_NoDup d 0) I0 I1 Hne _ Hs) as [P0 P1].
  rewrite (diag_real (seq 0 d) (m_at rho) Hs 0 I0), (diag_real (seq 0 d) (m_at rho) Hs (d - 1) I1), (st_herm _ _ Hs (d - 1) 0 I1 I0), Cmod_conj.
  pose proof (Cmod_ge_0 (m_at rho 0 (d - 1))) as P2. set (a := Re (m_at rho 0 0)) in *. set (b := Re (m_at rho (d - 1) (d - 1))) in *. set (c := Cmod (m_at rho 0 (d - 1))) in *.
  change (@fdiv C _) with Cdiv. toC. rewrite <- !RtoC_plus, <- RtoC_div by lra. rewrite Cmod_R, Rabs_pos_eq by lra. replace ((a + b + c + c) / 2)%R with (/ 2 * (a + b) + c)%R by field. exact V.
Qed.
