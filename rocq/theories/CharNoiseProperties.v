(** Property C68: the coherence and ZZ experiments on decaying qubits, from the
    circuits to the estimates. *)
From Coq Require Import QArith Qreals Reals Lra.
From Coquelicot Require Import Coquelicot.
From Verif Require Import LinAlg Base PyStr QSem DihedralModel RBSeqModel RBSeqSpec StdGates AccSpec EntSpec CtmpSpec CountsModel MeasCalModel
  CharModel CharSpec CharEndProofs CharEstModel CharNoiseSpec CharNoiseProofs CharNoiseLawProofs CharEstProofs CharNoiseEndProofs.
Local Open Scope string_scope.
Local Open Scope list_scope.
Local Open Scope nat_scope.

(** * The fits *)

(** [fit_data] on some series and qubits: these get the parameters curve_fit
    returns and the square roots of its variances; the others keep theirs. *)
Theorem C68_fit : forall (X Y : Type) cf f (xs : list X) p0 b0 series nq (ydata : dict pystr (list (list (Y * R)))) st qid p b which,
  (forall s, In s series -> exists l, dget (g_params st) s = Some l /\ length l = nq) -> (forall s, In s series -> exists l, dget (g_errs st) s = Some l /\ length l = nq) ->
  let ss := match which with None => series | Some l => l end in
  let qs := match qid with None => seq 0 nq | Some q => [q] end in
  let b' := match b with None => b0 | Some b => b end in let p' := match p with None => p0 | Some p => p end in
  (forall s, In s ss -> In s series) -> (forall q, In q qs -> q < nq) ->
  forall est : pystr -> nat -> list R * list R,
  (forall s q, In s ss -> In q qs -> exists l pts, dget ydata s = Some l /\ nth_error l q = Some pts /\ cf f xs (map fst pts) (map snd pts) p' b' = Ok (est s q)) ->
  exists st', fit_data cf f xs p0 b0 series nq ydata st qid p b which = Ok st' /\
  (forall s q i, In s ss -> In q qs -> get_param st' i q s false = index_e (fst (est s q)) i /\ get_param st' i q s true = index_e (map sqrt (snd (est s q))) i) /\
  (forall s q i err, ~ (In s ss /\ In q qs) -> get_param st' i q s err = get_param st i q s err).
Proof.
  intros X Y cf f xs p0 b0 series nq ydata st qid p b which Hp He ss qs b' p' Hs Hq est H.
  assert (F : forall s q, In s ss -> In q qs -> fit_is cf f xs ydata p' b' s q (fst (est s q)) (snd (est s q))).
  { intros s q H1 H2. destruct (H s q H1 H2) as (l & pts & A & B & D). exists pts. split; [unfold get_at; rewrite A; apply ResultFacts.index_ok; exact B|]. rewrite D. destruct (est s q); reflexivity. }
  destruct (fit_data_ok cf f xs p0 b0 series nq ydata st qid p b which Hp He Hs Hq) as (st' & E & _ & _ & K1 & K2); [intros s q H1 H2; eexists _, _; apply F; assumption|].
  exists st'. split; [exact E|]. split.
  - intros s q i H1 H2. destruct (K1 s q _ _ H1 H2 (F s q H1 H2)) as [A B]. unfold get_param. rewrite A, B. auto.
  - intros s q i err Hn. destruct (K2 s q Hn) as [A B]. unfold get_param. destruct err; [rewrite B|rewrite A]; reflexivity.
Qed.
Print Assumptions C68_fit.

(** * T1 *)

(** Qubits that relax at the rate 1/T1: the data are the fitted curve with
    parameters (1, T1, 0), and a least-squares fit of them returns exactly T1. *)
Theorem C68_t1 : forall gmat omega noise lens gate_time qs, char_gates gmat omega -> qs <> [] -> NoDup qs -> (forall q, In q qs -> partner (noise q) <> Some q) -> lens <> [] ->
  exists circs xs, t1_circuits lens gate_time qs = Ok (circs, xs) /\ xs = map (fun l => (gate_time * inject_Z (Z.of_nat l))%Q) lens /\
  forall rs, noisy_runs gmat noise (Q2R gate_time) (length qs) rs circs ->
  exists ys, calc_data (t1_fitter (length xs) (length qs) rs) = Ok ys /\
  (forall j, j < length qs -> (0 < relax (noise (nth j qs 0%nat)))%R -> data_on ys (str "0") j xs (fun x => exp_fit x 1 (/ relax (noise (nth j qs 0%nat))) 0)) /\
  forall cf p0 bounds, three_values lens -> (0 < gate_time)%Q -> (0 < nth 1 (fst bounds) 0)%R ->
    (forall j, j < length qs -> (0 < relax (noise (nth j qs 0%nat)))%R /\ within bounds [1; / relax (noise (nth j qs 0%nat)); 0]%R /\ fits_well cf exp_fun xs p0 bounds ys (str "0") j) ->
  exists st, new_fit cf exp_fun xs p0 bounds (t1_fitter (length xs) (length qs) rs) = Ok (ys, st) /\
  forall j, j < length qs -> fit_time st j (str "0") = Ok (/ relax (noise (nth j qs 0%nat)))%R.
Proof.
  intros gmat omega noise lens g qs G Hq Hn Ha Hne. destruct (t1_noisy gmat omega G noise lens g qs Hq Hn Ha Hne) as (circs & xs & E & Ex & H). exists circs, xs. split; [exact E|]. split; [exact Ex|].
  intros rs Hr. destruct (H rs Hr) as (ys & Ec & Hd). exists ys. split; [exact Ec|].
  assert (Hd' : forall j, j < length qs -> data_on ys (str "0") j xs (fun x => 1 * exp (- (relax (noise (nth j qs 0%nat)) * x)) + 0)%R).
  { intros j Hj. apply (data_on_ext _ _ _ _ _ _ (fun x => eq_sym (eq_trans (Rplus_0_r _) (Rmult_1_l _))) (Hd j Hj)). }
  split.
  - intros j Hj Hr'. apply (data_on_ext _ _ _ _ _ _ (fun x => exp_curve 1 _ 0 x Hr') (Hd' j Hj)).
  - intros cf p0 bounds H3 Hg Hb Hf. apply (exp_estimate cf xs p0 bounds (t1_fitter (length xs) (length qs) rs) ys 1%R 0%R (fun j => relax (noise (nth j qs 0%nat)))); auto; try exact R1_neq_R0.
    exact (three_delays g lens Hg H3 xs g Hg Ex).
Qed.
Print Assumptions C68_t1.

(** * T2 *)

(** Echoes on dephasing qubits, with any detuning and any coupling to qubits at
    rest: the data are the fitted curve with parameters (1/2, T2, 1/2), or
    (-1/2, T2, 1/2) when the number of Y pulses is even, in the total waiting
    time; a least-squares fit within bounds that contain them returns exactly T2. *)
Theorem C68_t2 : forall gmat omega noise lens gate_time qs n_echos (alt : bool), char_gates gmat omega -> qs <> [] -> NoDup qs -> (forall q, In q qs -> partner (noise q) <> Some q) -> lens <> [] -> (1 <= n_echos)%Z ->
  let a := (if Nat.even (if alt then 1 + (Z.to_nat n_echos - 1) / 2 else Z.to_nat n_echos) then - (1 / 2) else 1 / 2)%R in
  exists circs xs, t2_circuits lens gate_time qs n_echos alt = Ok (circs, xs) /\ xs = map (fun l => (2 * gate_time * inject_Z (Z.of_nat l) * inject_Z n_echos)%Q) lens /\
  forall rs, noisy_runs gmat noise (Q2R gate_time) (length qs) rs circs ->
  exists ys, calc_data (t2_fitter (length xs) (length qs) rs) = Ok ys /\
  (forall j, j < length qs -> (0 < dephase (noise (nth j qs 0%nat)))%R -> data_on ys (str "0") j xs (fun x => exp_fit x a (/ dephase (noise (nth j qs 0%nat))) (1 / 2))) /\
  forall cf p0 bounds, three_values lens -> (0 < gate_time)%Q -> (0 < nth 1 (fst bounds) 0)%R ->
    (forall j, j < length qs -> (0 < dephase (noise (nth j qs 0%nat)))%R /\ within bounds [a; / dephase (noise (nth j qs 0%nat)); 1 / 2]%R /\ fits_well cf exp_fun xs p0 bounds ys (str "0") j) ->
  exists st, new_fit cf exp_fun xs p0 bounds (t2_fitter (length xs) (length qs) rs) = Ok (ys, st) /\
  forall j, j < length qs -> fit_time st j (str "0") = Ok (/ dephase (noise (nth j qs 0%nat)))%R.
Proof.
  intros gmat omega noise lens g qs n alt G Hq Hn Ha Hne He a. destruct (t2_noisy gmat omega G noise lens g qs n alt Hq Hn Ha Hne He) as (circs & xs & E & Ex & H). exists circs, xs. split; [exact E|]. split; [exact Ex|].
  intros rs Hr. destruct (H rs Hr) as (ys & Ec & Hd). exists ys. split; [exact Ec|]. split.
  - intros j Hj Hr'. apply (data_on_ext _ _ _ _ _ _ (fun x => exp_curve a _ (1 / 2) x Hr') (Hd j Hj)).
  - intros cf p0 bounds H3 Hg Hb Hf. apply (exp_estimate cf xs p0 bounds (t2_fitter (length xs) (length qs) rs) ys a (1 / 2)%R (fun j => dephase (noise (nth j qs 0%nat)))); auto.
    + unfold a. destruct (Nat.even _); lra.
    + assert (K : (0 < 2 * g * inject_Z n)%Q) by (apply (Qmult_lt_0_compat (2 * g)); [apply (Qmult_lt_0_compat 2); [reflexivity|exact Hg]|unfold Qlt, inject_Z; cbn; lia]).
      destruct (three_delays (2 * g * inject_Z n)%Q lens K H3 _ (2 * g * inject_Z n)%Q K eq_refl) as (x1 & x2 & x3 & I1 & I2 & I3 & L1 & L2).
      assert (T : forall x, In x (map (fun l => (2 * g * inject_Z n * inject_Z (Z.of_nat l))%Q) lens) -> exists x', In x' xs /\ Q2R x' = Q2R x).
      { intros x Hx. apply in_map_iff in Hx. destruct Hx as (l & <- & Hl). exists (2 * g * inject_Z (Z.of_nat l) * inject_Z n)%Q. split; [rewrite Ex; exact (in_map (fun l => (2 * g * inject_Z (Z.of_nat l) * inject_Z n)%Q) lens l Hl)|]. apply Qeq_eqR. ring. }
      destruct (T x1 I1) as (y1 & J1 & E1), (T x2 I2) as (y2 & J2 & E2), (T x3 I3) as (y3 & J3 & E3). exists y1, y2, y3. rewrite E1, E2, E3. auto.
Qed.
Print Assumptions C68_t2.

(** * T2* *)

(** Ramsey experiments on dephasing qubits that are off resonance: the data are
    the fitted curve with parameters (1/2, T2, f, 0, 1/2), where f is the frequency
    the circuit function returns plus the offset; when the bounds determine the
    parameters the fit returns them. *)
Theorem C68_t2star : forall gmat omega noise lens gate_time qs nosc, char_gates gmat omega -> qs <> [] -> NoDup qs -> (forall q, In q qs -> partner (noise q) = None) ->
  lens <> [] -> ~ (gate_time == 0)%Q -> last lens 0 <> 0 ->
  exists circs xs f0, t2star_circuits lens gate_time qs nosc = Ok (circs, xs, f0) /\ xs = map (fun l => (gate_time * inject_Z (Z.of_nat l))%Q) lens /\ (f0 * last xs 0 == nosc)%Q /\
  forall rs, noisy_runs gmat noise (Q2R gate_time) (length qs) rs circs ->
  exists ys, calc_data (t2star_fitter (length xs) (length qs) rs) = Ok ys /\
  (forall j, j < length qs -> let d := noise (nth j qs 0%nat) in (0 < dephase d)%R -> data_on ys (str "0") j xs (fun x => osc_fit x (1 / 2) (/ dephase d) (Q2R f0 + offset d) 0 (1 / 2))) /\
  forall cf p0 bounds, identifiable osc_fun xs bounds ->
    (forall j, j < length qs -> let d := noise (nth j qs 0%nat) in (0 < dephase d)%R /\ within bounds [1 / 2; / dephase d; Q2R f0 + offset d; 0; 1 / 2]%R /\ fits_well cf osc_fun xs p0 bounds ys (str "0") j) ->
  exists st, new_fit cf osc_fun xs p0 bounds (t2star_fitter (length xs) (length qs) rs) = Ok (ys, st) /\
  forall j, j < length qs -> let d := noise (nth j qs 0%nat) in fit_time st j (str "0") = Ok (/ dephase d)%R /\ get_param st 2 j (str "0") false = Ok (Q2R f0 + offset d)%R.
Proof.
  intros gmat omega noise lens g qs nosc G Hq Hn Ha Hne Hg Hl. destruct (t2star_noisy gmat omega G noise lens g qs nosc Hq Hn Ha Hne Hg Hl) as (circs & xs & f0 & E & Ex & Ef & H).
  exists circs, xs, f0. split; [exact E|]. split; [exact Ex|]. split; [exact Ef|]. intros rs Hr. destruct (H rs Hr) as (ys & Ec & Hd). exists ys. split; [exact Ec|].
  assert (Hd' : forall j, j < length qs -> (0 < dephase (noise (nth j qs 0%nat)))%R -> data_on ys (str "0") j xs (fun x => osc_fun x [1 / 2; / dephase (noise (nth j qs 0%nat)); Q2R f0 + offset (noise (nth j qs 0%nat)); 0; 1 / 2]%R)).
  { intros j Hj Hr'. apply (data_on_ext _ _ _ _ _ _ (fun x => osc_curve (1 / 2) _ _ (1 / 2) x Hr') (Hd j Hj)). }
  split; [exact Hd'|]. intros cf p0 bounds Hi Hf.
  destruct (curve_estimate cf osc_fun xs p0 bounds (t2star_fitter (length xs) (length qs) rs) ys
    (fun _ j => [1 / 2; / dephase (noise (nth j qs 0%nat)); Q2R f0 + offset (noise (nth j qs 0%nat)); 0; 1 / 2]%R) Ec Hi) as (st & Es & K).
  - intros s j [<-|[]] Hj. destruct (Hf j Hj) as (H1 & H2 & H3). split; [apply Hd'; assumption|auto].
  - exists st. split; [exact Es|]. intros j Hj d. split; [exact (K (str "0") j 1 (or_introl eq_refl) Hj)|exact (K (str "0") j 2 (or_introl eq_refl) Hj)].
Qed.
Print Assumptions C68_t2star.

(** * ZZ *)

(** Qubits without decay whose frequency is shifted when their spectator is in 1:
    the data of the two series are the fitted curves whose frequencies differ by
    the shift; when the bounds determine the parameters, the rate reported is the
    shift. *)
Theorem C68_zz : forall gmat omega noise lens gate_time qs specs nosc, char_gates gmat omega -> qs <> [] -> length specs = length qs -> NoDup qs -> NoDup specs ->
  (forall q, In q qs -> ~ In q specs) -> (forall q, In q qs -> exists p, partner (noise q) = Some p /\ In p specs) -> lens <> [] -> ~ (gate_time == 0)%Q -> last lens 0 <> 0 ->
  (forall q, In q qs -> dephase (noise q) = 0%R) ->
  exists circs xs f0, zz_circuits lens gate_time qs specs nosc = Ok (circs, xs, f0) /\ xs = map (fun l => (gate_time * inject_Z (Z.of_nat l))%Q) lens /\
  forall rs, noisy_runs gmat noise (Q2R gate_time) (length qs) rs circs ->
  exists ys, calc_data (zz_fitter (length xs) (length qs) rs) = Ok ys /\
  (forall j, j < length qs -> let d := noise (nth j qs 0%nat) in
     data_on ys (str "0") j xs (fun x => osc_nodecay_fit x (1 / 2) (Q2R f0 + offset d) 0 (1 / 2)) /\ data_on ys (str "1") j xs (fun x => osc_nodecay_fit x (1 / 2) (Q2R f0 + offset d + shift d) 0 (1 / 2))) /\
  forall cf p0 bounds, identifiable osc_nodecay_fun xs bounds ->
    (forall j, j < length qs -> let d := noise (nth j qs 0%nat) in
       within bounds [1 / 2; Q2R f0 + offset d; 0; 1 / 2]%R /\ within bounds [1 / 2; Q2R f0 + offset d + shift d; 0; 1 / 2]%R /\
       fits_well cf osc_nodecay_fun xs p0 bounds ys (str "0") j /\ fits_well cf osc_nodecay_fun xs p0 bounds ys (str "1") j) ->
  exists st, new_fit cf osc_nodecay_fun xs p0 bounds (zz_fitter (length xs) (length qs) rs) = Ok (ys, st) /\
  forall j, j < length qs -> zz_rate st j = Ok (shift (noise (nth j qs 0%nat))).
Proof.
  intros gmat omega noise lens g qs specs nosc G Hq HL Hn Hsn Hd Ha Hne Hg Hl H0. destruct (zz_noisy gmat omega G noise lens g qs specs nosc Hq HL Hn Hsn Hd Ha Hne Hg Hl) as (circs & xs & f0 & E & Ex & _ & H).
  exists circs, xs, f0. split; [exact E|]. split; [exact Ex|]. intros rs Hr. destruct (H rs Hr) as (ys & Ec & Hdat). exists ys. split; [exact Ec|].
  assert (Hz : forall j, j < length qs -> dephase (noise (nth j qs 0%nat)) = 0%R) by (intros j Hj; apply H0, nth_In, Hj).
  assert (D0 : forall j, j < length qs -> data_on ys (str "0") j xs (fun x => osc_nodecay_fun x [1 / 2; Q2R f0 + offset (noise (nth j qs 0%nat)); 0; 1 / 2]%R)).
  { intros j Hj. refine (data_on_ext _ _ _ _ _ _ _ (Hdat "0" j (or_introl eq_refl) Hj)). intros x. cbn [flipped String.eqb]. rewrite <- (nodecay_curve (1 / 2) _ _ (1 / 2) x (Hz j Hj)). do 4 f_equal. cbn. ring. }
  assert (D1 : forall j, j < length qs -> data_on ys (str "1") j xs (fun x => osc_nodecay_fun x [1 / 2; Q2R f0 + offset (noise (nth j qs 0%nat)) + shift (noise (nth j qs 0%nat)); 0; 1 / 2]%R)).
  { intros j Hj. refine (data_on_ext _ _ _ _ _ _ _ (Hdat "1" j (or_intror (or_introl eq_refl)) Hj)). intros x. rewrite <- (nodecay_curve (1 / 2) _ _ (1 / 2) x (Hz j Hj)). do 4 f_equal. cbn. ring. }
  split; [intros j Hj d; split; [exact (D0 j Hj)|exact (D1 j Hj)]|]. intros cf p0 bounds Hi Hf.
  destruct (curve_estimate cf osc_nodecay_fun xs p0 bounds (zz_fitter (length xs) (length qs) rs) ys
    (fun s j => if eqb s (str "1") then [1 / 2; Q2R f0 + offset (noise (nth j qs 0%nat)) + shift (noise (nth j qs 0%nat)); 0; 1 / 2]%R else [1 / 2; Q2R f0 + offset (noise (nth j qs 0%nat)); 0; 1 / 2]%R) Ec Hi) as (st & Es & K).
  - intros s j Hs Hj. destruct (Hf j Hj) as (W0 & W1 & F0 & F1). destruct Hs as [<-|[<-|[]]]; cbv [eqb]; (split; [|split]); auto; [exact (D0 j Hj)|exact (D1 j Hj)].
  - exists st. split; [exact Es|]. intros j Hj. unfold zz_rate. pose proof (K (str "0") j 1 (or_introl eq_refl) Hj) as K0. pose proof (K (str "1") j 1 (or_intror (or_introl eq_refl)) Hj) as K1.
    rewrite K0, K1. change (eqb (str "0") (str "1")) with false. change (eqb (str "1") (str "1")) with true. cbn [index_e nth_error bind]. f_equal. ring.
Qed.
Print Assumptions C68_zz.

(** * Cases *)

(** A qubit that relaxes with T1 = 1/ln 2, in units of the gate time; 4 shots. *)
Definition e68_noise : nat -> decay := fun _ => {| relax := ln 2; dephase := ln 2; offset := 0; partner := None; shift := 0 |}.
Definition e68_rs : list qresult := [[{| e_name := str "t1circuit_0_0"; e_counts := [(str "1", 4%Z)] |}; {| e_name := str "t1circuit_1_0"; e_counts := [(str "0", 2%Z); (str "1", 2%Z)] |};
  {| e_name := str "t1circuit_2_0"; e_counts := [(str "1", 1%Z); (str "0", 3%Z)] |}]].
Lemma e68_pow k : exp (- (ln 2 * (INR k * Q2R 1))) = ((/ 2) ^ k)%R.
Proof.
  replace (Q2R 1) with 1%R by (unfold Q2R; cbn; field). induction k as [|k IH]; [cbn; rewrite Rmult_0_l, Rmult_0_r, Ropp_0; apply exp_0|].
  rewrite S_INR. replace (- (ln 2 * ((INR k + 1) * 1)))%R with (- (ln 2 * (INR k * 1)) + - ln 2)%R by ring. rewrite exp_plus, IH, exp_Ropp, exp_ln by lra. cbn [pow]. ring.
Qed.
Example C68_runs : forall circs xs, t1_circuits [0; 1; 2] 1 [1] = Ok (circs, xs) -> noisy_runs (chargate 0) e68_noise (Q2R 1) 1 e68_rs circs.
Proof.
  intros circs xs E. unfold t1_circuits in E. cbn [maxq fold_left bind series_circuits length seq combine map fst snd] in E. injection E as <- <-.
  assert (P : forall len os, length os = 1 -> noisy_prob (chargate 0) e68_noise (Q2R 1) (t1_body [1] (1 + 1) len) (key_of os) = (if nth 0 os false then (/ 2) ^ len else 1 - (/ 2) ^ len)%R).
  { intros len os Hos. rewrite (t1_prob (chargate 0) 0 (chargate_ok 0) e68_noise (Q2R 1) [1] (1 + 1) len); [|constructor; [intros []|constructor]|intros q _; discriminate|exact Hos].
    destruct os as [|o [|]]; try discriminate Hos. cbn [CharProdProofs.pst nth]. cbn [e68_noise relax]. rewrite e68_pow. destruct o; cbn; ring. }
  assert (V : forall name c, In (name, c) [(str "t1circuit_0_0", [(str "1", 4%Z)]); (str "t1circuit_1_0", [(str "0", 2%Z); (str "1", 2%Z)]); (str "t1circuit_2_0", [(str "1", 1%Z); (str "0", 3%Z)])] -> valid_run e68_rs name 1).
  { intros name c H. split; [|destruct H as [H|[H|[H|[]]]]; injection H as <- <-; reflexivity]. intros r c' [<-|[]] E.
    destruct H as [H|[H|[H|[]]]]; injection H as <- <-; vm_compute in E; injection E as <-; (split; [repeat (constructor; [cbn; intuition discriminate|]); constructor|]); repeat constructor; auto; discriminate. }
  intros c [<-|[<-|[<-|[]]]]; cbn [cname cbody];
    (split; [eapply V; cbn; auto|]); (split; [reflexivity|]); intros os Hos; rewrite P by exact Hos; destruct os as [|[|] [|]]; try discriminate Hos; cbn [nth pow];
    match goal with |- IZR ?x = (IZR ?y * _)%R => let v := eval vm_compute in x in change x with v; let w := eval vm_compute in y in change y with w end; try field; ring.
Qed.
(** A fit that happens to know the answer gives it. *)
Definition e68_fit (f : R -> list R -> R) (xs ys : list Q) (es p0 : list R) (b : list R * list R) : result (list R * list R) := Ok ([1; / ln 2; 0]%R, [0; 0; 0]%R).
Example C68_t1_case : exists circs xs ys st, t1_circuits [0; 1; 2] 1 [1] = Ok (circs, xs) /\
  new_fit e68_fit exp_fun xs [1; 1; 0]%R ([0; 1; 0], [1; 100; 1])%R (t1_fitter (length xs) 1 e68_rs) = Ok (ys, st) /\ fit_time st 0 (str "0") = Ok (/ ln 2)%R.
Proof.
  destruct (C68_t1 (chargate 0) 0 e68_noise [0; 1; 2] 1 [1] (chargate_ok 0)) as (circs & xs & E & _ & H); [discriminate|constructor; [intros []|constructor]|discriminate|discriminate|].
  destruct (H e68_rs (C68_runs circs xs E)) as (ys & Ec & Hd & K).
  assert (L2 : (0 < ln 2 < 1)%R). { split; [pose proof ln_lt_2; lra|]. apply exp_lt_inv. rewrite exp_ln by lra. pose proof (exp_ineq1 1 R1_neq_R0). lra. }
  assert (I2 : (1 <= / ln 2 <= 2)%R).
  { pose proof ln_lt_2 as Hl. split; [rewrite <- Rinv_1 at 1; apply Rinv_le_contravar; lra|]. apply (Rle_trans _ (/ / 2)); [apply Rinv_le_contravar; lra|rewrite Rinv_inv; lra]. }
  assert (W : within ([0; 1; 0], [1; 100; 1])%R [1; / ln 2; 0]%R) by (split; cbn [fst snd]; repeat first [apply Forall2_nil|apply Forall2_cons; [lra|]]).
  destruct (K e68_fit [1; 1; 0]%R ([0; 1; 0], [1; 100; 1])%R) as (st & En & Ht).
  - exists 0, 1, 2. cbn. intuition lia.
  - reflexivity.
  - cbn. lra.
  - intros j Hj. assert (j = 0) by (cbn in Hj; lia). subst j. cbn [nth e68_noise relax]. split; [lra|]. split; [exact W|].
    intros qs pts A B. eexists _, _. split; [reflexivity|]. split; [exact W|]. intros ps' _. apply (Rle_trans _ 0); [|apply residual_nonneg].
    destruct (Hd 0 Hj) as (qs' & pts' & A' & B' & D); [cbn; lra|]. rewrite A in A'. injection A' as <-. rewrite B in B'. injection B' as <-.
    apply (residual_zero exp_fun xs pts [1; / ln 2; 0]%R (fun x => exp_fit x 1 (/ ln 2) 0) D). intros x _. reflexivity.
  - exists circs, xs, ys, st. split; [exact E|]. split; [exact En|]. exact (Ht 0 (le_n 1)).
Qed.

(** Bounds that determine the frequency, and both the frequency and the decay. *)
Lemma within_fix lo hi v a p : within (v :: lo, v :: hi) (a :: p) -> a = v /\ within (lo, hi) p.
Proof. intros [L U]. cbn [fst snd] in *. inversion L; subst. inversion U; subst. split; [lra|]. split; assumption. Qed.
Lemma within_range lo hi l u a p : within (l :: lo, u :: hi) (a :: p) -> (l <= a <= u)%R /\ within (lo, hi) p.
Proof. intros [L U]. cbn [fst snd] in *. inversion L; subst. inversion U; subst. split; [lra|]. split; assumption. Qed.
Lemma within_nil_inv lo hi p l u : within (l :: lo, u :: hi) p -> exists a p', p = a :: p'.
Proof. intros [L _]. cbn [fst] in L. inversion L; subst. eauto. Qed.
Ltac open_within H := match type of H with within (_ :: _, _ :: _) ?p => let a := fresh "a" in let p' := fresh "p" in destruct (within_nil_inv _ _ _ _ _ H) as (a & p' & ->) end.
Lemma cos_two_pi f f' : (0 <= f <= 1 / 2)%R -> (0 <= f' <= 1 / 2)%R -> cos (2 * PI * f) = cos (2 * PI * f') -> f = f'.
Proof.
  intros Hf Hf' E. pose proof PI_RGT_0 as HP. apply (Rmult_eq_reg_l (2 * PI)); [|lra]. apply cos_inj; [split|split|exact E]; nra.
Qed.
Example C68_zz_case : identifiable osc_nodecay_fun [0%Q; 1%Q] ([1 / 2; 0; 0; 1 / 2], [1 / 2; 1 / 2; 0; 1 / 2])%R.
Proof.
  intros ps ps' W W' H. specialize (H 1%Q (or_intror (or_introl eq_refl))). replace (Q2R 1) with 1%R in H by (unfold Q2R; cbn; field).
  open_within W. apply within_fix in W. destruct W as [-> W]. open_within W. apply within_range in W. destruct W as [F W]. open_within W. apply within_fix in W. destruct W as [-> W]. open_within W. apply within_fix in W. destruct W as [-> [W _]]. cbn in W. inversion W; subst.
  open_within W'. apply within_fix in W'. destruct W' as [-> W']. open_within W'. apply within_range in W'. destruct W' as [F' W']. open_within W'. apply within_fix in W'. destruct W' as [-> W']. open_within W'. apply within_fix in W'. destruct W' as [-> [W' _]]. cbn in W'. inversion W'; subst.
  cbn in H. unfold osc_nodecay_fit in H. rewrite !Rmult_1_r, !Rplus_0_r in H. do 2 f_equal. apply cos_two_pi; auto. lra.
Qed.
Example C68_t2star_case : identifiable osc_fun [1%Q; 2%Q] ([1 / 2; 1; 0; 0; 1 / 2], [1 / 2; 100; 1 / 2; 0; 1 / 2])%R.
Proof.
  intros ps ps' W W' H. pose proof (H 1%Q (or_introl eq_refl)) as H1. pose proof (H 2%Q (or_intror (or_introl eq_refl))) as H2. clear H.
  replace (Q2R 1) with 1%R in H1 by (unfold Q2R; cbn; field). replace (Q2R 2) with 2%R in H2 by (unfold Q2R; cbn; field).
  open_within W. apply within_fix in W. destruct W as [-> W]. open_within W. apply within_range in W. destruct W as [T W]. open_within W. apply within_range in W. destruct W as [F W]. open_within W. apply within_fix in W. destruct W as [-> W]. open_within W. apply within_fix in W. destruct W as [-> [W _]]. cbn in W. inversion W; subst.
  open_within W'. apply within_fix in W'. destruct W' as [-> W']. open_within W'. apply within_range in W'. destruct W' as [T' W']. open_within W'. apply within_range in W'. destruct W' as [F' W']. open_within W'. apply within_fix in W'. destruct W' as [-> W']. open_within W'. apply within_fix in W'. destruct W' as [-> [W' _]]. cbn in W'. inversion W'; subst.
  cbn in H1, H2. unfold osc_fit in H1, H2. rewrite !Rplus_0_r in H1, H2. rewrite !Rmult_1_r in H1.
  assert (X : forall tau f, (exp (Ropp 2 / tau) = exp (Ropp 1 / tau) * exp (Ropp 1 / tau))%R /\ (cos (2 * PI * f * 2) = 2 * cos (2 * PI * f) * cos (2 * PI * f) - 1)%R).
  { intros tau f. split; [rewrite <- exp_plus; f_equal; unfold Rdiv; ring|]. replace (2 * PI * f * 2)%R with (2 * (2 * PI * f))%R by ring. apply cos_2a_cos. }
  match type of T with (_ <= ?tau <= _)%R => match type of T' with (_ <= ?tau' <= _)%R => match type of F with (_ <= ?f <= _)%R => match type of F' with (_ <= ?f' <= _)%R =>
    rename tau into t; rename tau' into t'; rename f into g; rename f' into g' end end end end.
  destruct (X t g) as [X1 X2]. destruct (X t' g') as [X3 X4]. pose proof (exp_pos (Ropp 1 / t)) as P. pose proof (exp_pos (Ropp 1 / t')) as P'.
  rewrite X1, X2, X3, X4 in H2. remember (exp (Ropp 1 / t)) as e eqn:De. remember (exp (Ropp 1 / t')) as e' eqn:De'. remember (cos (2 * PI * g)) as c eqn:Dc. remember (cos (2 * PI * g')) as c' eqn:Dc'. clear X X1 X2 X3 X4.
  assert (A : (e * c = e' * c')%R) by lra.
  assert (A2 : ((e * c) * (e * c) = (e' * c') * (e' * c'))%R) by (rewrite A; reflexivity).
  assert (B : (e * e = e' * e')%R) by lra.
  assert (Ee : e = e') by (apply (Rmult_eq_reg_r (e + e')); lra).
  assert (Ec : c = c') by (rewrite Ee in A; apply (Rmult_eq_reg_l e'); lra).
  assert (Et : (/ t = / t')%R) by (rewrite De, De' in Ee; apply exp_inv in Ee; unfold Rdiv in Ee; lra).
  assert (Et' : t = t') by (rewrite <- (Rinv_inv t), Et; apply Rinv_inv).
  rewrite Dc, Dc' in Ec. rewrite (cos_two_pi g g' F F' Ec), Et'. reflexivity.
Qed.
