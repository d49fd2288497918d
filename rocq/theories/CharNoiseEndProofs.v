(** The coherence experiments on decaying qubits, from circuits to estimates (C68). *)
From Coq Require Import QArith Qreals Reals Lra.
From Coquelicot Require Import Coquelicot.
From Verif Require Import Base LinAlg QSem PyStr DihedralModel RBSeqModel RBSeqSpec StdGates AccSpec EntSpec CtmpSpec.
From Verif Require Import CountsModel MeasCalModel CharModel CharSpec CharProdProofs CharCircProofs CharIdealProofs CharCalProofs CharDataProofs CharEndProofs
  CharEstModel CharNoiseSpec CharNoiseProofs CharNoiseLawProofs CharEstProofs.
Local Open Scope string_scope.
Local Open Scope list_scope.
Local Open Scope nat_scope.

Lemma Q2R_nat n : Q2R (inject_Z (Z.of_nat n)) = INR n.
Proof. rewrite INR_IZR_INZ. unfold Q2R, inject_Z. cbn. field. Qed.
Lemma Q2R_delay g len : Q2R (g * inject_Z (Z.of_nat len))%Q = (INR len * Q2R g)%R.
Proof. rewrite Q2R_mult, Q2R_nat. ring. Qed.

(** One or two series whose bits are independent. *)
Lemma series_law gmat noise t m base series o lens xs rs (body : string -> nat -> nat -> list cinstr) (P : string -> nat -> nat -> nat -> R) (v : string -> nat -> R -> R) :
  NoDup (map str series) -> lens <> [] -> length xs = length lens ->
  (forall s i len os, In s series -> nth_error lens i = Some len -> length os = m -> noisy_prob gmat noise t (body s i len) (key_of os) = pst (HF:=Fld_R) (fun j => bernoulli (P s i len j)) os) ->
  (forall s i len j x, In s series -> nth_error lens i = Some len -> nth_error xs i = Some x -> j < m -> bernoulli (P s i len j) o = v s j (Q2R x)) ->
  noisy_runs gmat noise t m rs (flat_map (fun s => series_circuits base s lens (body s)) series) ->
  exists ys, calc_data (fitter_of base series (digit o) (length xs) m rs) = Ok ys /\ forall s j, In s series -> j < m -> data_on ys (str s) j xs (v s j).
Proof.
  intros Hnd Hne HL Hp Hv Hr.
  apply (fitter_law m base series o xs rs (fun s i j => bernoulli (P s i (nth i lens 0) j)) (fun s i => noisy_prob gmat noise t (body s i (nth i lens 0))) v).
  - exact Hnd.
  - destruct xs, lens; cbn in *; congruence.
  - intros s i Hs Hi. rewrite HL in Hi. pose proof (nth_error_nth' lens 0 Hi) as Hn.
    assert (HI : In {| cname := char_name base i s; cbody := body s i (nth i lens 0) |} (flat_map (fun s => series_circuits base s lens (body s)) series)).
    { apply in_flat_map. exists s. split; [exact Hs|]. apply series_In. exact Hn. }
    destruct (Hr _ HI) as [A B]. cbn [cname cbody] in A, B. split; [exact A|]. split; [exact B|]. split.
    + intros os Hos. apply Hp; assumption.
    + intros j _. apply bernoulli_sum.
  - intros s i j x Hs Hj Hi. assert (Hi' : i < length lens) by (rewrite <- HL; apply nth_error_Some; congruence).
    apply (Hv s i (nth i lens 0) j x); auto. apply nth_error_nth'. exact Hi'.
Qed.

Section End.
Context (gmat : pystr -> list Q -> bits -> bits -> C) (omega : R) (G : char_gates gmat omega).
Context (noise : nat -> decay).
Notation curve_fits := ((R -> list R -> R) -> list Q -> list Q -> list R -> list R -> list R * list R -> result (list R * list R)).
Notation qn j qs := (noise (nth j qs 0)).

Lemma three_delays g lens : (0 < g)%Q -> three_values lens -> forall (xs : list Q) (k : Q), (0 < k)%Q -> xs = map (fun l => (k * inject_Z (Z.of_nat l))%Q) lens ->
  exists x1 x2 x3, In x1 xs /\ In x2 xs /\ In x3 xs /\ (Q2R x1 < Q2R x2)%R /\ (Q2R x2 < Q2R x3)%R.
Proof.
  intros Hg (a & b & c & Ia & Ib & Ic & Hab & Hbc) xs k Hk ->. exists (k * inject_Z (Z.of_nat a))%Q, (k * inject_Z (Z.of_nat b))%Q, (k * inject_Z (Z.of_nat c))%Q.
  assert (K : forall l, In l lens -> In (k * inject_Z (Z.of_nat l))%Q (map (fun l => (k * inject_Z (Z.of_nat l))%Q) lens)) by (intros l Hl; exact (in_map (fun l => (k * inject_Z (Z.of_nat l))%Q) lens l Hl)).
  split; [apply K, Ia|]. split; [apply K, Ib|]. split; [apply K, Ic|].
  assert (Hk' : (0 < Q2R k)%R). { replace 0%R with (Q2R 0) by (unfold Q2R; cbn; field). apply Qlt_Rlt. exact Hk. }
  rewrite !Q2R_delay. split; apply Rmult_lt_compat_r; auto; apply lt_INR; assumption.
Qed.

Lemma t1_noisy lens g qs : qs <> [] -> NoDup qs -> (forall q, In q qs -> alone noise q) -> lens <> [] ->
  exists circs xs, t1_circuits lens g qs = Ok (circs, xs) /\ xs = map (fun l => (g * inject_Z (Z.of_nat l))%Q) lens /\
  forall rs, noisy_runs gmat noise (Q2R g) (length qs) rs circs ->
  exists ys, calc_data (t1_fitter (length xs) (length qs) rs) = Ok ys /\
  forall j, j < length qs -> data_on ys (str "0") j xs (fun x => exp (- (relax (qn j qs) * x))).
Proof.
  intros Hq Hn Ha Hne. destruct (maxq_ok qs Hq) as [m Em]. unfold t1_circuits. rewrite Em. cbn [bind]. eexists _, _. split; [reflexivity|]. split; [reflexivity|].
  intros rs Hr. destruct (series_law gmat noise (Q2R g) (length qs) "t1circuit_" ["0"] true lens (delays g lens) rs (fun _ _ len => t1_body qs (m + 1) len)
    (fun _ _ len j => exp (- (relax (qn j qs) * (INR len * Q2R g)))%R) (fun _ j x => exp (- (relax (qn j qs) * x)))%R) as (ys & E & H).
  - repeat constructor. intros [].
  - exact Hne.
  - apply length_delays.
  - intros s i len os _ _ Hos. apply (t1_prob gmat omega G); assumption.
  - intros s i len j x _ Hi Hx _. rewrite nth_delays, Hi in Hx. injection Hx as <-. cbn [bernoulli]. rewrite Q2R_delay. reflexivity.
  - cbn [flat_map]. rewrite app_nil_r. exact Hr.
  - exists ys. split; [exact E|]. intros j Hj. apply (H "0" j (or_introl eq_refl) Hj).
Qed.

Lemma t2_noisy lens g qs n alt : qs <> [] -> NoDup qs -> (forall q, In q qs -> alone noise q) -> lens <> [] -> (1 <= n)%Z ->
  exists circs xs, t2_circuits lens g qs n alt = Ok (circs, xs) /\ xs = map (fun l => (2 * g * inject_Z (Z.of_nat l) * inject_Z n)%Q) lens /\
  forall rs, noisy_runs gmat noise (Q2R g) (length qs) rs circs ->
  exists ys, calc_data (t2_fitter (length xs) (length qs) rs) = Ok ys /\
  forall j, j < length qs -> data_on ys (str "0") j xs (fun x => (if Nat.even (echo_ys (Z.to_nat n) alt) then - (1 / 2) else 1 / 2) * exp (- (dephase (qn j qs) * x)) + 1 / 2)%R.
Proof.
  intros Hq Hn Ha Hne Hne'. destruct (maxq_ok qs Hq) as [m Em]. unfold t2_circuits. destruct (Z.ltb_spec n 1) as [?|_]; [lia|]. rewrite Em. cbn [bind]. eexists _, _. split; [reflexivity|]. split; [reflexivity|].
  intros rs Hr. set (xs := map (fun l => (2 * g * inject_Z (Z.of_nat l) * inject_Z n)%Q) lens).
  destruct (series_law gmat noise (Q2R g) (length qs) "t2circuit_" ["0"] false lens xs rs (fun _ _ len => t2_body qs (m + 1) len (Z.to_nat n) alt)
    (fun _ _ len j => echo_pop noise (Q2R g) (nth j qs 0) len (Z.to_nat n) alt) (fun _ j x => (if Nat.even (echo_ys (Z.to_nat n) alt) then - (1 / 2) else 1 / 2) * exp (- (dephase (qn j qs) * x)) + 1 / 2)%R) as (ys & E & H).
  - repeat constructor. intros [].
  - exact Hne.
  - apply map_length.
  - intros s i len os _ _ Hos. apply (t2_prob gmat omega G); try assumption. lia.
  - intros s i len j x _ Hi Hx _. unfold xs in Hx. rewrite nth_error_map, Hi in Hx. injection Hx as <-. unfold bernoulli, echo_pop.
    assert (Ex : Q2R (2 * g * inject_Z (Z.of_nat len) * inject_Z n) = (INR (Z.to_nat n * (2 * len)) * Q2R g)%R).
    { rewrite !Q2R_mult, Q2R_nat, !mult_INR. replace (Q2R (inject_Z n)) with (INR (Z.to_nat n)). { replace (Q2R 2) with 2%R by (unfold Q2R; cbn; field). cbn [INR]. ring. }
      rewrite INR_IZR_INZ, Z2Nat.id by lia. unfold Q2R, inject_Z. cbn. field. }
    rewrite Ex. destruct (Nat.even _); field.
  - cbn [flat_map]. rewrite app_nil_r. exact Hr.
  - exists ys. split; [exact E|]. intros j Hj. apply (H "0" j (or_introl eq_refl) Hj).
Qed.

Lemma ramsey_pop_curve g q len f0 x df : x = (g * inject_Z (Z.of_nat len))%Q ->
  (1 - ramsey_pop noise (Q2R g) df q len (2 * f0 * x)%Q = 1 / 2 * exp (- (dephase (noise q) * Q2R x)) * cos (2 * PI * (Q2R f0 + df) * Q2R x) + 1 / 2)%R.
Proof.
  intros Ex. unfold ramsey_pop.
  replace (INR len * (2 * PI * df * Q2R g) + PI * Q2R (2 * f0 * x))%R with (2 * PI * (Q2R f0 + df) * Q2R x)%R.
  - rewrite Ex, Q2R_delay. field.
  - rewrite Ex, !Q2R_mult, Q2R_nat. replace (Q2R 2) with 2%R by (unfold Q2R; cbn; field). ring.
Qed.

Lemma t2star_noisy lens g qs nosc : qs <> [] -> NoDup qs -> (forall q, In q qs -> partner (noise q) = None) -> lens <> [] -> ~ (g == 0)%Q -> last lens 0 <> 0 ->
  exists circs xs f0, t2star_circuits lens g qs nosc = Ok (circs, xs, f0) /\ xs = map (fun l => (g * inject_Z (Z.of_nat l))%Q) lens /\ (f0 * last xs 0 == nosc)%Q /\
  forall rs, noisy_runs gmat noise (Q2R g) (length qs) rs circs ->
  exists ys, calc_data (t2star_fitter (length xs) (length qs) rs) = Ok ys /\
  forall j, j < length qs -> data_on ys (str "0") j xs (fun x => 1 / 2 * exp (- (dephase (qn j qs) * x)) * cos (2 * PI * (Q2R f0 + offset (qn j qs)) * x) + 1 / 2)%R.
Proof.
  intros Hq Hn Ha Hne Hg Hl. destruct (maxq_ok qs Hq) as [m Em]. unfold t2star_circuits. rewrite Em. cbn [bind].
  destruct (last_nonzero g lens Hne Hg Hl) as (xl & El & Ell & Hx0). rewrite El. cbn [bind]. eexists _, _, _. split; [reflexivity|]. split; [reflexivity|]. split; [rewrite Ell; field; exact Hx0|].
  intros rs Hr. set (f0 := (nosc / xl)%Q) in *.
  destruct (series_law gmat noise (Q2R g) (length qs) "t2starcircuit_" ["0"] false lens (delays g lens) rs (fun _ i len => t2star_body qs (m + 1) len (2 * f0 * nth i (delays g lens) 0)%Q)
    (fun _ i len j => ramsey_pop noise (Q2R g) (offset (qn j qs)) (nth j qs 0) len (2 * f0 * nth i (delays g lens) 0)%Q)
    (fun _ j x => 1 / 2 * exp (- (dephase (qn j qs) * x)) * cos (2 * PI * (Q2R f0 + offset (qn j qs)) * x) + 1 / 2)%R) as (ys & E & H).
  - repeat constructor. intros [].
  - exact Hne.
  - apply length_delays.
  - intros s i len os _ _ Hos. apply (t2star_prob gmat omega G); assumption.
  - intros s i len j x _ Hi Hx _. cbn [bernoulli]. rewrite (nth_error_nth _ _ _ Hx). rewrite nth_delays, Hi in Hx. injection Hx as <-. apply ramsey_pop_curve. reflexivity.
  - cbn [flat_map]. rewrite app_nil_r. exact Hr.
  - exists ys. split; [exact E|]. intros j Hj. apply (H "0" j (or_introl eq_refl) Hj).
Qed.

Definition flipped (s : string) : bool := String.eqb s "1".
Lemma zz_noisy lens g qs specs nosc : qs <> [] -> length specs = length qs -> NoDup qs -> NoDup specs -> (forall q, In q qs -> ~ In q specs) ->
  (forall q, In q qs -> exists p, partner (noise q) = Some p /\ In p specs) -> lens <> [] -> ~ (g == 0)%Q -> last lens 0 <> 0 ->
  exists circs xs f0, zz_circuits lens g qs specs nosc = Ok (circs, xs, f0) /\ xs = map (fun l => (g * inject_Z (Z.of_nat l))%Q) lens /\ (f0 * last xs 0 == nosc)%Q /\
  forall rs, noisy_runs gmat noise (Q2R g) (length qs) rs circs ->
  exists ys, calc_data (zz_fitter (length xs) (length qs) rs) = Ok ys /\
  forall s j, In s ["0"; "1"] -> j < length qs -> data_on ys (str s) j xs
    (fun x => 1 / 2 * exp (- (dephase (qn j qs) * x)) * cos (2 * PI * (Q2R f0 + (offset (qn j qs) + (if flipped s then shift (qn j qs) else 0))) * x) + 1 / 2)%R.
Proof.
  intros Hq HL Hn Hsn Hd Ha Hne Hg Hl. destruct (maxq_ok qs Hq) as [m Em]. destruct (maxq_ok specs) as [m' Em']; [destruct specs, qs; cbn in *; congruence|].
  unfold zz_circuits. rewrite HL, Nat.eqb_refl. cbn [negb].
  assert (Ex : existsb (fun q => mem q specs) qs = false).
  { apply not_true_is_false. intros H. apply existsb_exists in H. destruct H as (q & H1 & H2). apply mem_In in H2. exact (Hd q H1 H2). }
  rewrite Ex, Em, Em'. cbn [bind].
  destruct (last_nonzero g lens Hne Hg Hl) as (xl & El & Ell & Hx0). rewrite El. cbn [bind]. eexists _, _, _. split; [reflexivity|]. split; [reflexivity|]. split; [rewrite Ell; field; exact Hx0|].
  intros rs Hr. set (f0 := (nosc / xl)%Q) in *. set (n := Nat.max m m' + 1) in *.
  set (sp := fun q => match partner (noise q) with Some p => p | None => 0 end).
  destruct (series_law gmat noise (Q2R g) (length qs) "zzcircuit_" ["0"; "1"] false lens (delays g lens) rs
    (fun s i len => zz_body qs specs n len (2 * f0 * nth i (delays g lens) 0)%Q (flipped s))
    (fun s i len j => ramsey_pop noise (Q2R g) (offset (qn j qs) + (if flipped s then shift (qn j qs) else 0)) (nth j qs 0) len (2 * f0 * nth i (delays g lens) 0)%Q)
    (fun s j x => 1 / 2 * exp (- (dephase (qn j qs) * x)) * cos (2 * PI * (Q2R f0 + (offset (qn j qs) + (if flipped s then shift (qn j qs) else 0))) * x) + 1 / 2)%R) as (ys & E & H).
  - repeat constructor; cbn; intuition discriminate.
  - exact Hne.
  - apply length_delays.
  - intros s i len os _ _ Hos. apply (zz_prob gmat omega G noise (Q2R g) qs specs n len _ (flipped s) sp Hn Hsn Hd); [|exact Hos].
    intros q Hi. destruct (Ha q Hi) as (p & Ep & Hp). unfold sp. rewrite Ep. auto.
  - intros s i len j x _ Hi Hx _. cbn [bernoulli]. rewrite (nth_error_nth _ _ _ Hx). rewrite nth_delays, Hi in Hx. injection Hx as <-. apply ramsey_pop_curve. reflexivity.
  - cbn [flat_map]. rewrite app_nil_r. exact Hr.
  - exists ys. split; [exact E|]. exact H.
Qed.

(** Estimates. *)
Lemma fit_time_of (st : fitted) s j ps v : get_at (g_params st) s j = Ok ps -> index_e ps 1 = Ok v -> fit_time st j s = Ok v.
Proof. intros E H. unfold fit_time, get_param. rewrite E. exact H. Qed.
End End.
Lemma data_on_ext ys s j xs v v' : (forall x, v x = v' x) -> data_on ys s j xs v -> data_on ys s j xs v'.
Proof.
  intros E (qs & pts & A & B & D). exists qs, pts. split; [exact A|]. split; [exact B|]. clear A B. induction D as [|x pe xs pts [H1 H2] D IH]; constructor; [|exact IH]. rewrite <- E. auto.
Qed.
Lemma exp_curve a r c x : (0 < r)%R -> (a * exp (- (r * x)) + c = exp_fun x [a; / r; c])%R.
Proof. intros Hr. cbn. unfold exp_fit. replace (- x / / r)%R with (- (r * x))%R by (field; lra). reflexivity. Qed.
Lemma osc_curve a r f c x : (0 < r)%R -> (a * exp (- (r * x)) * cos (2 * PI * f * x) + c = osc_fun x [a; / r; f; 0; c])%R.
Proof. intros Hr. cbn. unfold osc_fit. replace (- x / / r)%R with (- (r * x))%R by (field; lra). rewrite Rplus_0_r. reflexivity. Qed.
Lemma nodecay_curve a r f c x : r = 0%R -> (a * exp (- (r * x)) * cos (2 * PI * f * x) + c = osc_nodecay_fun x [a; f; 0; c])%R.
Proof. intros ->. cbn. unfold osc_nodecay_fit. rewrite Rmult_0_l, Ropp_0, exp_0, Rplus_0_r. ring. Qed.

(** Exponential data: the fit returns the true time constant. *)
Lemma exp_estimate cf xs p0 bounds ft ys a c (rate : nat -> R) : calc_data ft = Ok ys -> f_series ft = [str "0"] -> (a <> 0)%R -> (0 < nth 1 (fst bounds) 0)%R ->
  (exists x1 x2 x3, In x1 xs /\ In x2 xs /\ In x3 xs /\ (Q2R x1 < Q2R x2)%R /\ (Q2R x2 < Q2R x3)%R) ->
  (forall j, j < f_nq ft -> data_on ys (str "0") j xs (fun x => a * exp (- (rate j * x)) + c)%R) ->
  (forall j, j < f_nq ft -> (0 < rate j)%R /\ within bounds [a; / rate j; c] /\ fits_well cf exp_fun xs p0 bounds ys (str "0") j) ->
  exists st, new_fit cf exp_fun xs p0 bounds ft = Ok (ys, st) /\ forall j, j < f_nq ft -> fit_time st j (str "0") = Ok (/ rate j)%R.
Proof.
  intros E Es Ha Hb (x1 & x2 & x3 & I1 & I2 & I3 & H12 & H23) Hd H.
  destruct (exact_fits cf exp_fun xs p0 bounds ft ys (fun _ j => [a; / rate j; c]%R) E) as (st & Ef & K).
  - rewrite Es. intros s j [<-|[]] Hj. destruct (H j Hj) as (Hr & Hw & Hf). split; [|auto]. apply (data_on_ext _ _ _ _ (fun x => a * exp (- (rate j * x)) + c)%R); [|apply Hd, Hj].
    intros x. apply exp_curve. exact Hr.
  - exists st. split; [exact Ef|]. intros j Hj. destruct (K (str "0") j) as (ps & Ep & Hw & Hx); [rewrite Es; left; reflexivity|exact Hj|]. destruct (H j Hj) as (Hr & Hw' & _).
    apply (fit_time_of st (str "0") j ps _ Ep). exact (exp_tau_of bounds ps a (/ rate j) c x1 x2 x3 xs Hb Hw Hw' Ha I1 I2 I3 H12 H23 Hx).
Qed.
(** Other curves, when the bounds determine the parameters. *)
Lemma curve_estimate cf f xs p0 bounds ft ys (par : pystr -> nat -> list R) : calc_data ft = Ok ys -> identifiable f xs bounds ->
  (forall s j, In s (f_series ft) -> j < f_nq ft -> data_on ys s j xs (fun x => f x (par s j)) /\ within bounds (par s j) /\ fits_well cf f xs p0 bounds ys s j) ->
  exists st, new_fit cf f xs p0 bounds ft = Ok (ys, st) /\ forall s j i, In s (f_series ft) -> j < f_nq ft -> get_param st i j s false = index_e (par s j) i.
Proof.
  intros E Hi H. destruct (exact_fits cf f xs p0 bounds ft ys par E H) as (st & Ef & K). exists st. split; [exact Ef|]. intros s j i Hs Hj. destruct (K s j Hs Hj) as (ps & Ep & Hw & Hx).
  unfold get_param. rewrite Ep. cbn [bind]. f_equal. apply Hi; auto. apply (H s j Hs Hj).
Qed.
