(** From circuits to data points, and gates that meet the conditions. *)
From Coq Require Import QArith Qreals Reals Lra.
From Coquelicot Require Import Coquelicot.
From Verif Require Import Base LinAlg QSem PyStr DihedralModel RBSeqModel RBSeqSpec StdGates AccSpec EntSpec CtmpSpec ResultFacts EntMqcProofs.
From Verif Require Import CountsModel MeasCalModel CharModel CharSpec CharProdProofs CharCircProofs CharIdealProofs CharCalProofs CharDataProofs.
Local Open Scope string_scope.
Local Open Scope list_scope.
Local Open Scope nat_scope.

Lemma nth_series base s lens body i : nth_error (series_circuits base s lens body) i =
  option_map (fun len => {| cname := char_name base i s; cbody := body i len |}) (nth_error lens i).
Proof.
  unfold series_circuits. assert (G : forall l k i, nth_error (map (fun il => {| cname := char_name base (fst il) s; cbody := body (fst il) (snd il) |}) (combine (seq k (length l)) l)) i =
    option_map (fun len => {| cname := char_name base (k + i) s; cbody := body (k + i) len |}) (nth_error l i)).
  { clear. induction l as [|a l IH]; intros k [|i]; cbn [length seq combine map nth_error option_map fst snd]; try reflexivity.
    - rewrite Nat.add_0_r. reflexivity.
    - rewrite IH. replace (S k + i) with (k + S i) by lia. reflexivity. }
  apply (G lens 0).
Qed.
Lemma length_series base s lens body : length (series_circuits base s lens body) = length lens.
Proof. unfold series_circuits. rewrite map_length, combine_length, seq_length. apply Nat.min_id. Qed.
Lemma series_In base s lens body i len : nth_error lens i = Some len -> In {| cname := char_name base i s; cbody := body i len |} (series_circuits base s lens body).
Proof. intros H. apply (nth_error_In _ i). rewrite nth_series, H. reflexivity. Qed.

(** The names expected by the fitters. *)
Lemma fitter_name base series o npts nq rs i s : i < npts -> exists n, nth_error (f_names (fitter_of base series o npts nq rs)) i = Some n /\ n ++ str s = char_name base i s.
Proof.
  intros Hi. exists (str base ++ dec i ++ str "_"). split; [|unfold char_name; rewrite <- !app_assoc; reflexivity]. cbn [f_names fitter_of].
  rewrite nth_error_map. rewrite (nth_error_nth' _ 0) by (rewrite seq_length; exact Hi). rewrite seq_nth by exact Hi. reflexivity.
Qed.
Definition digit (o : bool) : string := if o then "1" else "0".
Lemma fitter_exact gmat N qs base series o npts rs (w : string -> nat -> bool -> R) (bodies : string -> nat -> list cinstr) :
  (forall s i, In s series -> i < npts -> valid_run rs (char_name base i s) (length qs) /\ exact_shots rs (char_name base i s) (length qs) (prob gmat sqmod N (length qs) (bodies s i)) /\
     outcome_law gmat N qs (bodies s i) (w s i) /\ (w s i false + w s i true = 1)%R) ->
  exists ys, calc_data (fitter_of base series (digit o) npts (length qs) rs) = Ok ys /\
  forall si s j i, nth_error series si = Some s -> j < length qs -> i < npts -> mean_is ys si j i (w s i o).
Proof.
  intros H. set (f := fitter_of base series (digit o) npts (length qs) rs).
  destruct (calc_lemma f (length qs) o) as (ys & E & L & Hys).
  - destruct o; reflexivity.
  - apply le_n.
  - cbn. rewrite map_length, seq_length. apply le_n.
  - intros s i n Hs Hi Hn. cbn [f f_series fitter_of] in Hs. apply in_map_iff in Hs. destruct Hs as (s0 & <- & Hs).
    destruct (fitter_name base series (digit o) npts (length qs) rs i s0 Hi) as (n' & En & Ec). fold f in En. rewrite En in Hn. injection Hn as <-. rewrite Ec. apply (H s0 i Hs Hi).
  - exists ys. split; [exact E|]. intros si s j i Hs Hj Hi.
    destruct (fitter_name base series (digit o) npts (length qs) rs i s Hi) as (n & En & Ec). fold f in En.
    assert (Hs' : nth_error (f_series f) si = Some (str s)) by (cbn [f f_series fitter_of]; rewrite nth_error_map, Hs; reflexivity).
    destruct (Hys si (str s) j i n Hs' Hj Hi En) as (qs' & pts & p & e & A & B & D & _ & _ & Ep & _ & Ee & _). exists (str s), qs', pts, p, e. rewrite Ec in Ep.
    split; [exact A|]. split; [exact B|]. split; [exact D|]. split; [|exact Ee].
    destruct (H s i (nth_error_In _ _ Hs) Hi) as (Hv & He & Hl & Hw).
    rewrite <- (exact_fraction rs (char_name base i s) (length qs) j o (w s i) _ Hv He Hj Hw Hl). apply Qeq_eqR in Ep. change (f_results f) with rs in Ep. rewrite Ep.
    assert (Hn0 : ~ inject_Z (pooled rs (char_name base i s) (fun _ => true)) == 0) by (destruct Hv as [_ Hv]; unfold inject_Z, Qeq; cbn; lia).
    unfold Qdiv. rewrite Q2R_mult, Q2R_inv by exact Hn0. unfold Q2R. cbn. unfold Rdiv. rewrite ?RMicromega.Rinv_1, ?Rmult_1_r. reflexivity.
Qed.

(** Gates over the complex numbers that meet the conditions. *)
Definition u2c (p l : R) (a b : bool) : C :=
  Cmult (RtoC (/ sqrt 2)) (match a, b with false, false => RtoC 1 | false, true => Copp (expi (PI * l)) | true, false => expi (PI * p) | true, true => expi (PI * (p + l)) end).
Definition chargate (omega : R) (name : pystr) (ps : list Q) (o i : bits) : C :=
  match ps, o, i with
  | [], [a], [b] => if eqb name (str "id") then phase omega a b
                    else if eqb name (str "y") then (if Bool.eqb a b then RtoC 0 else if b then Copp Ci else Ci) else cgate name ps o i
  | [t], [a], [b] => phase (PI * Q2R t) a b
  | [p; l], [a], [b] => u2c (Q2R p) (Q2R l) a b
  | _, _, _ => cgate name ps o i
  end.
Lemma chargate_ok omega : char_gates (chargate omega) omega.
Proof. constructor; try reflexivity. pose proof cgate_std as [A B c d e f g h i]. constructor; auto. Qed.

Definition calgate (ty tx ax tc ac : R) (name : pystr) (ps : list Q) (o i : bits) : C :=
  match ps, o, i with
  | [], [a], [b] => if eqb name (str "y") then (if Bool.eqb a b then RtoC 0 else if b then Copp Ci else Ci) else if xorb a b then RtoC 1 else RtoC 0
  | [t], [a], [b] => phase (PI * Q2R t) a b
  | [p; l], [a], [b] => if Qeq_bool p 0 then rot ty (PI / 2) a b else rot tx ax a b
  | [], [a; a'], [b; b'] => if b then (if a then Cmult Ci (rot tc ac a' b') else RtoC 0) else if a then RtoC 0 else if xorb a' b' then RtoC 0 else RtoC 1
  | _, _, _ => RtoC 0
  end.
Lemma calgate_ok ty tx ax tc ac : cal_gates (calgate ty tx ax tc ac) ty tx ax tc ac.
Proof. constructor; reflexivity. Qed.

(** The ideal gates are the ones without errors. *)
Lemma u2_is_rot a b : u2c 0 0 a b = rot (PI / 2) (PI / 2) a b /\ u2c (- / 2) (/ 2) a b = rot (PI / 2) 0 a b.
Proof.
  unfold u2c, rot. rewrite cos_PI4', sin_PI4', expi_PI2.
  assert (En : expi (- (PI / 2)) = Copp Ci). { unfold expi. rewrite cos_neg, sin_neg, cos_PI2, sin_PI2. apply injective_projections; cbn; ring. }
  rewrite En. rewrite Ropp_0, expi_0. replace (PI * / 2)%R with (PI / 2)%R by field. replace (PI * - / 2)%R with (- (PI / 2))%R by field. replace (PI * (- / 2 + / 2))%R with 0%R by field. rewrite Rplus_0_l, Rmult_0_r, En, expi_PI2, expi_0.
  split; destruct a, b; apply injective_projections; cbn; ring.
Qed.
Lemma cx_is_rot a b : (if xorb a b then RtoC 1 else RtoC 0) = Cmult Ci (rot PI 0 a b).
Proof. unfold rot. rewrite cos_PI2, sin_PI2, Ropp_0, expi_0. destruct a, b; apply injective_projections; cbn; ring. Qed.

(** One or several series of circuits and the data of their fitter. *)
Lemma many_series gmat N qs base series o lens rs (body : string -> nat -> nat -> list cinstr) (w : nat -> nat -> bool -> R) :
  (forall s i len, In s series -> nth_error lens i = Some len -> outcome_law gmat N qs (body s i len) (w i len)) ->
  (forall i len, (w i len false + w i len true = 1)%R) ->
  exact_runs gmat N (length qs) rs (flat_map (fun s => series_circuits base s lens (body s)) series) ->
  exists ys, calc_data (fitter_of base series (digit o) (length lens) (length qs) rs) = Ok ys /\
  forall si j i len, si < length series -> j < length qs -> nth_error lens i = Some len -> mean_is ys si j i (w i len o).
Proof.
  intros Hl Hw Hr.
  destruct (fitter_exact gmat N qs base series o (length lens) rs (fun _ i => w i (nth i lens 0)) (fun s i => body s i (nth i lens 0))) as (ys & E & H).
  - intros s i Hs Hi. pose proof (nth_error_nth' lens 0 Hi) as Hn.
    assert (HI : In {| cname := char_name base i s; cbody := body s i (nth i lens 0) |} (flat_map (fun s => series_circuits base s lens (body s)) series)).
    { apply in_flat_map. exists s. split; [exact Hs|]. apply series_In. exact Hn. }
    destruct (Hr _ HI) as [A B]. cbn [cname cbody] in A, B. auto 10.
  - exists ys. split; [exact E|]. intros si j i len Hs Hj Hi. destruct (nth_error series si) as [s|] eqn:Es; [|apply nth_error_None in Es; lia].
    assert (Hi' : i < length lens) by (apply nth_error_Some; congruence).
    specialize (H si s j i Es Hj Hi'). rewrite (nth_error_nth lens i 0 Hi) in H. exact H.
Qed.
Lemma one_series gmat N qs base s o lens rs (body : nat -> nat -> list cinstr) (w : nat -> nat -> bool -> R) :
  (forall i len, nth_error lens i = Some len -> outcome_law gmat N qs (body i len) (w i len)) ->
  (forall i len, (w i len false + w i len true = 1)%R) ->
  exact_runs gmat N (length qs) rs (series_circuits base s lens body) ->
  exists ys, calc_data (fitter_of base [s] (digit o) (length lens) (length qs) rs) = Ok ys /\
  forall j i len, j < length qs -> nth_error lens i = Some len -> mean_is ys 0 j i (w i len o).
Proof.
  intros Hl Hw Hr. destruct (many_series gmat N qs base [s] o lens rs (fun _ => body) w) as (ys & E & H).
  - intros s0 i len _. apply Hl.
  - exact Hw.
  - cbn [flat_map]. rewrite app_nil_r. exact Hr.
  - exists ys. split; [exact E|]. intros j i len. apply H. cbn. lia.
Qed.
Lemma certain_sum o : (certain o false + certain o true = 1)%R.
Proof. destruct o; unfold certain; cbn; lra. Qed.
Lemma bernoulli_sum p : (bernoulli p false + bernoulli p true = 1)%R.
Proof. unfold bernoulli. lra. Qed.
Lemma maxq_ok qs : qs <> [] -> exists m, maxq qs = Ok m.
Proof. destruct qs; [congruence|]. intros _. eexists. reflexivity. Qed.
Lemma In_series base s lens body c : In c (series_circuits base s lens body) -> exists i len, nth_error lens i = Some len /\ c = {| cname := char_name base i s; cbody := body i len |}.
Proof.
  intros H. apply In_nth_error in H. destruct H as [i H]. rewrite nth_series in H. destruct (nth_error lens i) as [len|] eqn:E; [|discriminate]. injection H as <-. exists i, len. auto.
Qed.
Lemma nth_delays g lens i : nth_error (delays g lens) i = option_map (fun l => (g * inject_Z (Z.of_nat l))%Q) (nth_error lens i).
Proof. unfold delays. apply nth_error_map. Qed.
Lemma length_delays g lens : length (delays g lens) = length lens.
Proof. apply map_length. Qed.

Section Ideal.
Context (gmat : pystr -> list Q -> bits -> bits -> C) (omega : R) (G : char_gates gmat omega).

Lemma t1_summary N lens g qs : qs <> [] -> qubits_ok N qs ->
  exists circs xs, t1_circuits lens g qs = Ok (circs, xs) /\ length circs = length lens /\ xs = map (fun l => g * inject_Z (Z.of_nat l))%Q lens /\
  (forall c, In c circs -> outcome_law gmat N qs (cbody c) (certain true)) /\
  forall rs, exact_runs gmat N (length qs) rs circs -> exists ys, calc_data (t1_fitter (length xs) (length qs) rs) = Ok ys /\
    forall j i, j < length qs -> i < length lens -> mean_is ys 0 j i 1.
Proof.
  intros Hq Hok. destruct (maxq_ok qs Hq) as [m Em]. unfold t1_circuits. rewrite Em. cbn [bind]. eexists _, _. split; [reflexivity|].
  split; [apply length_series|]. split; [reflexivity|]. split.
  - intros c Hc. apply In_series in Hc. destruct Hc as (i & len & _ & ->). cbn [cbody]. apply (t1_law gmat omega G). exact Hok.
  - intros rs Hr. rewrite length_delays.
    destruct (one_series gmat N qs "t1circuit_" "0" true lens rs (fun _ len => t1_body qs (m + 1) len) (fun _ _ => certain true)) as (ys & E & H); auto.
    + intros i len _. apply (t1_law gmat omega G). exact Hok.
    + intros _ _. apply certain_sum.
    + exists ys. split; [exact E|]. intros j i Hj Hi. destruct (nth_error lens i) as [len|] eqn:El; [|apply nth_error_None in El; lia].
      exact (H j i len Hj El).
Qed.

Lemma t2_summary N lens g qs n alt : qs <> [] -> qubits_ok N qs -> (1 <= n)%Z ->
  exists circs xs, t2_circuits lens g qs n alt = Ok (circs, xs) /\ length circs = length lens /\ length xs = length lens /\
  (forall i len, nth_error lens i = Some len -> exists x, nth_error xs i = Some x /\ (x == 2 * g * inject_Z (Z.of_nat len) * inject_Z n)%Q) /\
  (forall c, In c circs -> outcome_law gmat N qs (cbody c) (certain (Nat.even (echo_ys (Z.to_nat n) alt)))) /\
  forall rs, exact_runs gmat N (length qs) rs circs -> exists ys, calc_data (t2_fitter (length xs) (length qs) rs) = Ok ys /\
    forall j i, j < length qs -> i < length lens -> mean_is ys 0 j i (if Nat.even (echo_ys (Z.to_nat n) alt) then 0 else 1).
Proof.
  intros Hq Hok Hn. destruct (maxq_ok qs Hq) as [m Em]. unfold t2_circuits. destruct (Z.ltb_spec n 1) as [?|_]; [lia|]. rewrite Em. cbn [bind]. eexists _, _. split; [reflexivity|].
  split; [apply length_series|]. rewrite map_length. split; [reflexivity|]. split.
  { intros i len Hi. eexists. rewrite nth_error_map, Hi. split; reflexivity. }
  assert (Hl : forall len, outcome_law gmat N qs (t2_body qs (m + 1) len (Z.to_nat n) alt) (certain (Nat.even (echo_ys (Z.to_nat n) alt)))).
  { intros len. apply (t2_law gmat omega G). exact Hok. lia. }
  split.
  - intros c Hc. apply In_series in Hc. destruct Hc as (i & len & _ & ->). apply Hl.
  - intros rs Hr.
    destruct (one_series gmat N qs "t2circuit_" "0" false lens rs (fun _ len => t2_body qs (m + 1) len (Z.to_nat n) alt) (fun _ _ => certain (Nat.even (echo_ys (Z.to_nat n) alt)))) as (ys & E & H); auto.
    + intros _ _. apply certain_sum.
    + exists ys. split; [exact E|]. intros j i Hj Hi. destruct (nth_error lens i) as [len|] eqn:El; [|apply nth_error_None in El; lia].
      specialize (H j i len Hj El). unfold certain in H. destruct (Nat.even _); exact H.
Qed.
End Ideal.

Lemma last_delay_ok xs : xs <> [] -> exists x, last_delay xs = Ok x /\ last xs 0%Q = x.
Proof.
  intros H. unfold last_delay. destruct (rev xs) as [|x r] eqn:E.
  - exfalso. apply H. rewrite <- (rev_involutive xs), E. reflexivity.
  - exists x. split; [reflexivity|]. rewrite <- (rev_involutive xs), E. cbn [rev]. apply last_last.
Qed.

(** A qubit with detuning [df] advances by 2*pi*df*gate_time per identity gate. *)
Lemma ramsey_curve (df : R) g len f x : x = (g * inject_Z (Z.of_nat len))%Q ->
  ramsey_law (2 * PI * df * Q2R g) len (2 * f * x)%Q false = osc_nodecay_fit (Q2R x) (1 / 2) (Q2R f + df) 0 (1 / 2).
Proof.
  intros Ex. unfold ramsey_law, bernoulli, osc_nodecay_fit.
  assert (Ei : INR len = Q2R (inject_Z (Z.of_nat len))). { rewrite INR_IZR_INZ. unfold Q2R, inject_Z. cbn. field. }
  replace (INR len * (2 * PI * df * Q2R g) + PI * Q2R (2 * f * x))%R with (2 * PI * (Q2R f + df) * Q2R x + 0)%R.
  - field.
  - rewrite Ex, Ei, !Q2R_mult. assert (E2 : Q2R 2 = 2%R) by (unfold Q2R; cbn; field). rewrite E2. ring.
Qed.

Lemma law_ext gmat N qs body w w' : (forall o, w o = w' o) -> outcome_law gmat N qs body w -> outcome_law gmat N qs body w'.
Proof.
  intros E H os Hos. rewrite (H os Hos). clear Hos. induction os as [|o os IH]; [reflexivity|]. cbn [fold_right]. rewrite IH, E. reflexivity.
Qed.
Definition curve (f df : R) (x : Q) : R := osc_nodecay_fit (Q2R x) (1/2) (f + df) 0 (1/2).
Lemma ramsey_bernoulli df g len f x o : x = (g * inject_Z (Z.of_nat len))%Q ->
  ramsey_law (2 * PI * df * Q2R g) len (2 * f * x)%Q o = bernoulli (1 - curve (Q2R f) df x) o.
Proof.
  intros Ex. pose proof (ramsey_curve df g len f x Ex) as E. fold (curve (Q2R f) df x) in E. unfold bernoulli. destruct o; [|rewrite E; ring].
  rewrite <- E. unfold ramsey_law, bernoulli. ring.
Qed.
Lemma last_nonzero g lens : lens <> [] -> ~ (g == 0)%Q -> last lens 0 <> 0 -> exists xl, last_delay (delays g lens) = Ok xl /\ last (delays g lens) 0%Q = xl /\ ~ (xl == 0)%Q.
Proof.
  intros Hne Hg Hl. destruct (last_delay_ok (delays g lens)) as (xl & El & Ell). { destruct lens; [congruence|discriminate]. }
  exists xl. split; [exact El|]. split; [exact Ell|].
  assert (Exl : xl = (g * inject_Z (Z.of_nat (last lens 0%nat)))%Q).
  { rewrite <- Ell. clear - Hne. induction lens as [|a [|b l] IH]; [congruence|reflexivity|]. cbn [last delays map] in *. apply IH. discriminate. }
  rewrite Exl. intros E. apply Qmult_integral in E. destruct E as [E|E]; [exact (Hg E)|]. unfold Qeq, inject_Z in E. cbn in E. lia.
Qed.

Lemma t2star_summary gmat df N lens g qs nosc : char_gates gmat (2 * PI * df * Q2R g) -> qs <> [] -> qubits_ok N qs -> lens <> [] -> ~ (g == 0)%Q -> last lens 0 <> 0 ->
  exists circs xs f, t2star_circuits lens g qs nosc = Ok (circs, xs, f) /\ length circs = length lens /\ xs = map (fun l => g * inject_Z (Z.of_nat l))%Q lens /\
  (f * last xs 0 == nosc)%Q /\
  (forall i c x, nth_error circs i = Some c -> nth_error xs i = Some x -> outcome_law gmat N qs (cbody c) (bernoulli (1 - osc_nodecay_fit (Q2R x) (1/2) (Q2R f + df) 0 (1/2)))) /\
  forall rs, exact_runs gmat N (length qs) rs circs -> exists ys, calc_data (t2star_fitter (length xs) (length qs) rs) = Ok ys /\
    forall j i x, j < length qs -> nth_error xs i = Some x -> mean_is ys 0 j i (osc_nodecay_fit (Q2R x) (1/2) (Q2R f + df) 0 (1/2)).
Proof.
  intros G Hq Hok Hne Hg Hl. destruct (maxq_ok qs Hq) as [m Em]. unfold t2star_circuits. rewrite Em. cbn [bind].
  destruct (last_nonzero g lens Hne Hg Hl) as (xl & El & Ell & Hx0).
  rewrite El. cbn [bind]. eexists _, _, _. split; [reflexivity|]. split; [apply length_series|]. split; [reflexivity|].
  split. { rewrite Ell. field. exact Hx0. }
  assert (HL : forall i len, nth_error lens i = Some len -> outcome_law gmat N qs (t2star_body qs (m + 1) len (2 * (nosc / xl) * nth i (delays g lens) 0)%Q)
    (bernoulli (1 - curve (Q2R (nosc / xl)) df (g * inject_Z (Z.of_nat len))))).
  { intros i len Hi. rewrite (nth_error_nth (delays g lens) i 0%Q (x := (g * inject_Z (Z.of_nat len))%Q)) by (rewrite nth_delays, Hi; reflexivity).
    apply (law_ext gmat N qs _ (ramsey_law (2 * PI * df * Q2R g) len (2 * (nosc / xl) * (g * inject_Z (Z.of_nat len)))%Q)).
    - intros o. apply ramsey_bernoulli. reflexivity.
    - apply (t2star_law gmat _ G). exact Hok. }
  split.
  - intros i c x Hc Hx. rewrite nth_series in Hc. rewrite nth_delays in Hx. destruct (nth_error lens i) as [len|] eqn:Hi; [|discriminate].
    injection Hc as <-. injection Hx as <-. cbn [cbody]. exact (HL i len Hi).
  - intros rs Hr. rewrite length_delays.
    destruct (one_series gmat N qs "t2starcircuit_" "0" false lens rs (fun i len => t2star_body qs (m + 1) len (2 * (nosc / xl) * nth i (delays g lens) 0)%Q)
      (fun _ len => bernoulli (1 - curve (Q2R (nosc / xl)) df (g * inject_Z (Z.of_nat len))))) as (ys & E & H); auto.
    + intros i len. apply bernoulli_sum.
    + exists ys. split; [exact E|]. intros j i x Hj Hx. rewrite nth_delays in Hx. destruct (nth_error lens i) as [len|] eqn:Hi; [|discriminate]. injection Hx as <-.
      specialize (H j i len Hj Hi). cbn beta iota delta [bernoulli] in H. match type of H with mean_is _ _ _ _ ?v => replace v with (curve (Q2R (nosc / xl)) df (g * inject_Z (Z.of_nat len))) in H by ring end. exact H.
Qed.

Lemma zz_summary gmat df N lens g qs specs nosc : char_gates gmat (2 * PI * df * Q2R g) -> qs <> [] -> length specs = length qs -> qubits_ok N (qs ++ specs) -> lens <> [] -> ~ (g == 0)%Q -> last lens 0 <> 0 ->
  exists circs xs f, zz_circuits lens g qs specs nosc = Ok (circs, xs, f) /\ length circs = 2 * length lens /\ xs = map (fun l => g * inject_Z (Z.of_nat l))%Q lens /\
  (f * last xs 0 == nosc)%Q /\
  forall rs, exact_runs gmat N (length qs) rs circs -> exists ys, calc_data (zz_fitter (length xs) (length qs) rs) = Ok ys /\
    forall si j i x, si < 2 -> j < length qs -> nth_error xs i = Some x -> mean_is ys si j i (osc_nodecay_fit (Q2R x) (1/2) (Q2R f + df) 0 (1/2)).
Proof.
  intros G Hq Hlen Hok Hne Hg Hl. destruct (maxq_ok qs Hq) as [m Em]. destruct (maxq_ok specs) as [ms Ems]. { intros ->. destruct qs; [congruence|discriminate]. }
  destruct Hok as [Hnd Hall]. apply Forall_app in Hall. destruct Hall as [Hall1 Hall2].
  assert (Hdis : forall q, In q qs -> ~ In q specs). { intros q H1 H2. clear - Hnd H1 H2. induction qs as [|a qs IH]; [exact H1|]. cbn in Hnd. inversion_clear Hnd. destruct H1 as [->|H1]; [apply H; apply in_or_app; auto|auto]. }
  assert (Hnd1 : NoDup qs). { clear - Hnd. induction qs; [constructor|]. cbn in Hnd. inversion_clear Hnd. constructor; [|auto]. intros HI. apply H. apply in_or_app. auto. }
  assert (Hnd2 : NoDup specs). { clear - Hnd. induction qs; [exact Hnd|]. cbn in Hnd. inversion_clear Hnd. auto. }
  unfold zz_circuits. rewrite Hlen, Nat.eqb_refl. cbn [negb].
  replace (existsb (fun q => mem q specs) qs) with false.
  2: { symmetry. destruct (existsb _ qs) eqn:E; [|reflexivity]. apply existsb_exists in E. destruct E as (q & H1 & H2). apply mem_In in H2. destruct (Hdis q H1 H2). }
  rewrite Em, Ems. cbn [bind].
  destruct (last_nonzero g lens Hne Hg Hl) as (xl & El & Ell & Hx0).
  rewrite El. cbn [bind]. eexists _, _, _. split; [reflexivity|]. split; [rewrite app_length, !length_series; lia|]. split; [reflexivity|].
  split. { rewrite Ell. field. exact Hx0. }
  set (body := fun s i len => zz_body qs specs (Nat.max m ms + 1) len (2 * (nosc / xl) * nth i (delays g lens) 0)%Q (String.eqb s "1")).
  assert (HL : forall s i len, nth_error lens i = Some len -> outcome_law gmat N qs (body s i len)
    (bernoulli (1 - curve (Q2R (nosc / xl)) df (g * inject_Z (Z.of_nat len))))).
  { intros s i len Hi. unfold body. rewrite (nth_error_nth (delays g lens) i 0%Q (x := (g * inject_Z (Z.of_nat len))%Q)) by (rewrite nth_delays, Hi; reflexivity).
    apply (law_ext gmat N qs _ (ramsey_law (2 * PI * df * Q2R g) len (2 * (nosc / xl) * (g * inject_Z (Z.of_nat len)))%Q)).
    - intros o. apply ramsey_bernoulli. reflexivity.
    - apply (zz_law gmat _ G); auto. split; assumption. }
  intros rs Hr. rewrite length_delays.
  destruct (many_series gmat N qs "zzcircuit_" ["0"; "1"] false lens rs body
      (fun _ len => bernoulli (1 - curve (Q2R (nosc / xl)) df (g * inject_Z (Z.of_nat len))))) as (ys & E & H); auto.
    + intros i len. apply bernoulli_sum.
    + cbn [flat_map]. rewrite app_nil_r. exact Hr.
    + exists ys. split; [exact E|]. intros si j i x Hs Hj Hx. rewrite nth_delays in Hx. destruct (nth_error lens i) as [len|] eqn:Hi; [|discriminate]. injection Hx as <-.
      specialize (H si j i len Hs Hj Hi). cbn beta iota delta [bernoulli] in H. match type of H with mean_is _ _ _ _ ?v => replace v with (curve (Q2R (nosc / xl)) df (g * inject_Z (Z.of_nat len))) in H by ring end. exact H.
Qed.
