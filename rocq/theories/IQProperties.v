(** C69: the data of the IQ fitters. *)
From Coq Require Import QArith Reals Lra.
From Coquelicot Require Import Coquelicot.
From Verif Require Import Base LinAlg PyStr ResultFacts CountsModel MeasCalModel CharModel CharEstModel IQModel IQSpec IQProofs IQProjProofs IQDataProofs IQFitProofs IQPoolProofs.
Local Open Scope string_scope.
Local Open Scope list_scope.
Local Open Scope nat_scope.

(** The point of every schedule and qubit is the mean of all the single shots of
    this schedule in all the runs, whatever the numbers of shots of the runs. *)
Theorem C69_average : forall m rs raws names series nq, averaged_results m rs -> Forall2 average_of (concat rs) raws -> nq <= m ->
  (forall s name, In s series -> In name names -> exists e, In e (concat rs) /\ q_name e = name ++ s) ->
  iq_data names series nq rs = Ok (map (fun s => (s, map (fun q => (project (map (fun name => cmean (shots_of rs raws (name ++ s) q)) names), map (fun _ => (1 / 10000)%R) names)) (seq 0 nq))) series).
Proof.
  intros m rs raws names series nq H Hr Hq Hn. rewrite (iq_data_ok m rs names series nq H Hq Hn). f_equal. apply map_ext_in. intros s Hs. f_equal. apply map_ext_in. intros q Hi. apply in_seq in Hi. f_equal. f_equal. apply map_ext_in. intros name Hname.
  apply (pooled_shots m); [exact H|exact Hr|lia|exact (Hn s name Hs Hname)].
Qed.
Print Assumptions C69_average.
(** Two runs with 1 and 3 shots: the mean of the four points (0, 4, 4, 8 at slot 0),
    not the mean 8/3 of the two averages 0 and 16/3. *)
Definition avg_exp (name : pystr) (k : nat) (l : list C) : iqexp := {| q_name := name; q_slots := length l; q_return := str "avg"; q_level := 1; q_shots := k; q_memory := Averaged l |}.
Definition two_runs : list iqresult := [[avg_exp (str "a_0") 1 [RtoC 0]]; [avg_exp (str "a_0") 3 [RtoC (16 / 3)]]].
Definition two_raws : list (list (list C)) := [[[RtoC 0]]; [[RtoC 4]; [RtoC 4]; [RtoC 8]]].
Lemma two_runs_averaged : averaged_results 1 two_runs.
Proof. intros r Hr. split; [destruct Hr as [<-|[<-|[]]]; cbn; repeat constructor; intros []|]. intros e He. destruct Hr as [<-|[<-|[]]]; destruct He as [<-|[]]; unfold averaged; cbn; (repeat split; try lia); eexists; split; reflexivity. Qed.
Lemma cmean_RtoC l : l <> [] -> cmean (map RtoC l) = RtoC (rmean l).
Proof.
  intros H. unfold cmean, rmean. rewrite map_length. assert (E : forall l x, fold_left Cplus (map RtoC l) (RtoC x) = RtoC (fold_left Rplus l x)). { induction l0 as [|y l0 IH]; intros x; [reflexivity|]. cbn [map fold_left]. rewrite <- RtoC_plus. apply IH. }
  unfold csumf. rewrite E, <- RtoC_mult. f_equal. unfold Rdiv. ring.
Qed.
Example C69_average_example : averaged_results 1 two_runs /\ Forall2 average_of (concat two_runs) two_raws /\ (exists e, In e (concat two_runs) /\ q_name e = str "a_" ++ str "0") /\ cmean (shots_of two_runs two_raws (str "a_0") 0) = RtoC 4.
Proof.
  split; [exact two_runs_averaged|]. split; [|split; [eexists; split; [left; reflexivity|reflexivity]|]].
  - constructor; [|constructor; [|constructor]]; (split; [reflexivity|]); intros j Hj; cbn in Hj; (assert (j = 0) as -> by lia); cbn [point avg_exp q_memory nth map].
    + change [RtoC 0] with (map RtoC [0%R]). rewrite cmean_RtoC by discriminate. f_equal. unfold rmean. cbn. field.
    + change [RtoC 4; RtoC 4; RtoC 8] with (map RtoC [4; 4; 8]%R). rewrite cmean_RtoC by discriminate. f_equal. unfold rmean. cbn. field.
  - change (shots_of two_runs two_raws (str "a_0") 0) with (map RtoC [0; 4; 4; 8]%R). rewrite cmean_RtoC by discriminate. f_equal. unfold rmean. cbn. field.
Qed.

(** A schedule that no run has is a KeyError. *)
Theorem C69_missing : forall m rs names series nq s name, averaged_results m rs -> nq <= m -> nq > 0 -> In s series -> In name names ->
  (forall e, In e (concat rs) -> q_name e <> name ++ s) -> iq_data names series nq rs = Err KeyError.
Proof. exact missing_key. Qed.
Print Assumptions C69_missing.
Example C69_missing_example : iq_data [str "b_"] [str "0"] 1 two_runs = Err KeyError.
Proof. apply (C69_missing 1 two_runs [str "b_"] [str "0"] 1 (str "0") (str "b_")); [exact two_runs_averaged|lia|lia|left; reflexivity|left; reflexivity|]. intros e [<-|[<-|[]]]; discriminate. Qed.

(** The fitters work only when every result has level 1 and is averaged. *)
Theorem C69_accepts : forall rs names series nq d, iq_data names series nq rs = Ok d -> names <> [] -> series <> [] -> nq > 0 ->
  forall r e, In r rs -> In e r -> q_level e = 1 /\ q_return e = str "avg".
Proof.
  intros rs names series nq d E Hn Hs Hq r e Hr He. split.
  - unfold iq_data in E. apply bind_inv in E. destruct E as (st & Es & _). destruct (add_all_returns rs st Es) as [[K _]|[_ K]].
    + exfalso. assert (In e (concat rs)) as Hi by (apply in_concat; exists r; auto). rewrite K in Hi. destruct Hi.
    + apply K. apply in_concat. exists r. auto.
  - destruct (eqb_spec (q_return e) (str "avg")) as [K|K]; [exact K|]. exfalso. exact (single_fails rs names series nq r e Hr He K Hn Hs Hq d E).
Qed.
Print Assumptions C69_accepts.
Example C69_accepts_example : exists d, iq_data [str "a_"] [str "0"] 1 two_runs = Ok d.
Proof. rewrite (iq_data_ok 1 two_runs); [eexists; reflexivity|exact two_runs_averaged|lia|]. intros s name [<-|[]] [<-|[]]. eexists. split; [left; reflexivity|reflexivity]. Qed.

(** Single shots, which [_build_iq_list] has code for, always fail: the sum over
    all axes leaves one number, which has no element for the qubit. *)
Theorem C69_single_refuted : exists rs, (forall e, In e (concat rs) -> q_level e = 1 /\ q_return e = str "single") /\ (forall s name, In s [str "0"] -> In name [str "a_"] -> exists e, In e (concat rs) /\ q_name e = name ++ s) /\
  iq_data [str "a_"] [str "0"] 1 rs = Err IndexError.
Proof.
  exists [[{| q_name := str "a_0"; q_slots := 1; q_return := str "single"; q_level := 1; q_shots := 2; q_memory := PerShot [[RtoC 1]; [RtoC 2]] |}]]. split; [intros e [<-|[]]; split; reflexivity|]. split; [intros s name [<-|[]] [<-|[]]; eexists; split; [left; reflexivity|reflexivity]|]. reflexivity.
Qed.
Print Assumptions C69_single_refuted.

(** The projection: onto one unit vector of the first quadrant, relative to the
    mean; so the values have the sum 0 and are not longer than the distances from the
    mean.  Only constant data have no projection. *)
Theorem C69_projection : forall l, l <> [] ->
  (project l = None <-> exists z, forall w, In w l -> w = z) /\
  forall ys, project l = Some ys -> exists c s, (0 <= c)%R /\ (0 <= s)%R /\ (c * c + s * s = 1)%R /\
    ys = map (fun z => c * (Re z - Re (cmean l)) + s * (Im z - Im (cmean l)))%R l /\ rmean ys = 0%R /\
    forall k z y, nth_error l k = Some z -> nth_error ys k = Some y -> (Rabs y <= Cmod (Cminus z (cmean l)))%R.
Proof.
  intros l Hl. split.
  - rewrite project_none. split; [intros [_ H]; exact H|intros H; split; assumption].
  - intros ys E. destruct (project_dir l ys Hl E) as (c & s & Hc & Hs & Hu & ->). rewrite (mean_cmean l Hl). exists c, s. split; [exact Hc|]. split; [exact Hs|]. split; [exact Hu|]. split; [reflexivity|]. split.
    + rewrite rmean_rsum. rewrite <- (mean_cmean l Hl), centred_sum by exact Hl. unfold Rdiv. ring.
    + intros k z y Hz Hy. rewrite nth_error_map, Hz in Hy. cbn [option_map] in Hy. injection Hy as <-. exact (cauchy c s _ _ Hu).
Qed.
Print Assumptions C69_projection.
Example C69_projection_example : project [RtoC 1; Ci] <> None /\ project [Ci; Ci] = None.
Proof.
  split.
  - intros E. apply (C69_projection [RtoC 1; Ci]) in E; [|discriminate]. destruct E as (z & E). pose proof (E (RtoC 1) (or_introl eq_refl)) as H1. pose proof (E Ci (or_intror (or_introl eq_refl))) as H2. rewrite <- H1 in H2. apply (f_equal fst) in H2. cbn in H2. lra.
  - apply (C69_projection [Ci; Ci]); [discriminate|]. exists Ci. intros w [<-|[<-|[]]]; reflexivity.
Qed.

(** Where the origin is, and in which unit the signal is measured, do not matter. *)
Theorem C69_affine : forall k b l, k <> 0%R -> project (map (fun z => Cplus (Cmult (RtoC k) z) b) l) = option_map (map (Rmult k)) (project l).
Proof. exact project_affine. Qed.
Print Assumptions C69_affine.
Example C69_affine_example : project (map (fun z => Cplus (Cmult (RtoC 1000) z) (RtoC 7)) [RtoC 1; Ci]) = option_map (map (Rmult 1000)) (project [RtoC 1; Ci]).
Proof. apply C69_affine. lra. Qed.

(** Points on a line: the positions on the line, with the mean subtracted, times
    [gain d]; that is the full length of [d] in the first and third quadrant. *)
Theorem C69_signal : forall z d ts, d <> RtoC 0 -> (exists t t', In t ts /\ In t' ts /\ t <> t') ->
  project (map (fun t => Cplus z (Cmult (RtoC t) d)) ts) = Some (map (fun t => gain d * t)%R (centred ts)) /\ ((0 <= Re d * Im d)%R -> Rabs (gain d) = Cmod d).
Proof.
  intros z d ts Hd Ht. split; [exact (project_line z d ts Hd Ht)|]. intros H. unfold gain.
  assert (P : (0 < Cmod d)%R) by (apply Cmod_gt_0; exact Hd).
  assert (S : (Cmod d * Cmod d = Re d ^ 2 + Im d ^ 2)%R) by (unfold Cmod, Re, Im; apply sqrt_sqrt; nra).
  unfold Rdiv. rewrite Rabs_mult, (Rabs_pos_eq (/ Cmod d)) by (left; apply Rinv_0_lt_compat; exact P).
  assert (A : Rabs (Re d * Rabs (Re d) + Im d * Rabs (Im d)) = (Re d ^ 2 + Im d ^ 2)%R).
  { unfold Rabs at 2 3. destruct (Rcase_abs (Re d)) as [H1|H1]; destruct (Rcase_abs (Im d)) as [H2|H2].
    - rewrite Rabs_left1 by nra. ring.
    - assert (Im d = 0)%R as K by nra. rewrite K in *. rewrite Rabs_left1 by nra. ring.
    - assert (Re d = 0)%R as K by nra. rewrite K in *. rewrite Rabs_left1 by nra. ring.
    - rewrite Rabs_pos_eq by nra. ring. }
  rewrite A, <- S. field. lra.
Qed.
Print Assumptions C69_signal.
Example C69_signal_example : project (map (fun t => Cplus Ci (Cmult (RtoC t) (3, 4)%R)) [0; 1]%R) = Some (map (fun t => gain (3, 4)%R * t)%R (centred [0; 1]%R)) /\ Rabs (gain (3, 4)%R) = 5%R.
Proof.
  destruct (C69_signal Ci (3, 4)%R [0; 1]%R) as [H1 H2].
  - intros E. apply (f_equal fst) in E. cbn in E. lra.
  - exists 0%R, 1%R. split; [left; reflexivity|]. split; [right; left; reflexivity|]. lra.
  - split; [exact H1|]. rewrite H2 by (unfold Re, Im; cbn [fst snd]; lra). unfold Cmod. cbn [fst snd]. replace (3 ^ 2 + 4 ^ 2)%R with (5 * 5)%R by ring. apply sqrt_square. lra.
Qed.

(** "To give the maximum signal" it is not: on the second diagonal nothing is left. *)
Theorem C69_maximum_refuted : forall z r ts, r <> 0%R -> (exists t t', In t ts /\ In t' ts /\ t <> t') ->
  project (map (fun t => Cplus z (Cmult (RtoC t) (r, - r)%R)) ts) = Some (map (fun _ => 0%R) ts).
Proof.
  intros z r ts Hr Ht. rewrite (project_line z (r, - r)%R ts); [|intros E; apply (f_equal fst) in E; cbn in E; lra|exact Ht]. f_equal. unfold centred. rewrite map_map. apply map_ext. intros t. cbn [Re Im fst snd]. rewrite Rabs_Ropp. unfold Rdiv. ring.
Qed.
Print Assumptions C69_maximum_refuted.
Example C69_maximum_example : project (map (fun t => Cplus (RtoC 0) (Cmult (RtoC t) (1, - (1))%R)) [0; 1]%R) = Some [0; 0]%R.
Proof. apply (C69_maximum_refuted (RtoC 0) 1 [0; 1]%R); [lra|]. exists 0%R, 1%R. split; [left; reflexivity|]. split; [right; left; reflexivity|]. lra. Qed.

(** A qubit whose signal does not depend on its state makes the fit fail. *)
Theorem C69_constant : forall cf base f m rs xs nq p0 bounds z0 z1 prob q, averaged_results m rs -> nq <= m -> xs <> [] -> iq_measured base rs xs nq z0 z1 prob ->
  q < nq -> z1 q = z0 q -> iq_fit cf base f rs xs nq p0 bounds = Err ValueError.
Proof. exact fit_nan. Qed.
Print Assumptions C69_constant.
Definition flat_runs : list iqresult := [[avg_exp (str "rabisched_0_0") 2 [Ci]; avg_exp (str "rabisched_1_0") 2 [Ci]]].
Example C69_constant_example : forall cf, rabi_fit cf flat_runs [0; 1]%R 1 [0; 0; 0; 0]%R ([], []) = Err ValueError.
Proof.
  intros cf. apply (C69_constant cf "rabisched_" osc_nodecay_fun 1 flat_runs [0; 1]%R 1 _ _ (fun _ => Ci) (fun _ => Ci) (fun _ _ => 0%R) 0); try lia; try discriminate; try reflexivity.
  - intros r [<-|[]]. split; [cbn; repeat constructor; cbn; intuition discriminate|]. intros e [<-|[<-|[]]]; unfold averaged; cbn; (repeat split; try lia); eexists; split; reflexivity.
  - intros k Hk. cbn in Hk. assert (k = 0 \/ k = 1) as [->| ->] by lia.
    + split; [eexists; split; [left; reflexivity|reflexivity]|]. intros e [<-|[<-|[]]] E q Hq; try discriminate. assert (q = 0) as -> by lia. cbn [point avg_exp q_memory nth]. rewrite Rminus_0_r. ring.
    + split; [eexists; split; [right; left; reflexivity|reflexivity]|]. intros e [<-|[<-|[]]] E q Hq; try discriminate. assert (q = 0) as -> by lia. cbn [point avg_exp q_memory nth]. rewrite Rminus_0_r. ring.
Qed.
