(** Property C51: training data and counts of the IQ discriminators,
    qiskit/ignis/measurement/discriminator. *)
From Verif Require Import Base PyStr ResultFacts DiscModel DiscSpec DiscProofs.
Local Open Scope string_scope.
Local Open Scope list_scope.
Local Open Scope nat_scope.

(** * Training data *)

(** When every used schedule is measured shot by shot in exactly one experiment
    of the results, the data and the labels have one entry for every shot, in the
    same order; [k_x] is those data, scaled if asked for. *)
Theorem C51_training_partial : forall V S C (scaler_fit : list (list V) -> result S) scaler_apply rs mask standardize ss rows label,
  (forall s, In s ss -> exp_once rs (sname s) (Single (rows (sname s))) /\ proper mask (rows (sname s))) ->
  (forall d : disc V S C, prepare scaler_fit scaler_apply (Some rs) mask (Some (map (fun s => label (sname s)) ss)) standardize (Some ss) = Ok d ->
    k_schedules d = ss /\ (forall n, dget (k_expected d) n = if mem n (map sname ss) then Some (label n) else None) /\
    exists x0, scaled scaler_fit scaler_apply standardize None x0 (k_scaler d) (k_x d) /\ aligned mask rows label ss x0 (k_y d)) /\
  (standardize = false -> exists d : disc V S C, prepare scaler_fit scaler_apply (Some rs) mask (Some (map (fun s => label (sname s)) ss)) standardize (Some ss) = Ok d).
Proof. intros. apply prepare_aligned. assumption. Qed.
Print Assumptions C51_training_partial.

(** In particular there are as many labels as data. *)
Theorem C51_lengths : forall V mask (rows : pystr -> list (list (V * V))) label ss x y, aligned mask rows label ss x y -> length x = length y.
Proof.
  intros V mask rows label ss x y (shots & _ & F & ->). rewrite map_length. symmetry. exact (Forall2_length' _ _ _ F).
Qed.
Print Assumptions C51_lengths.

(** Without schedules and labels: the experiments called 'cal_' and digits are
    used, in their order, and the digits are the label. *)
Theorem C51_default : forall V S C (scaler_fit : list (list V) -> result S) scaler_apply rs mask standardize,
  let names := filter is_calibration (map i_name (concat rs)) in
  (prepare scaler_fit scaler_apply (C := C) (Some rs) mask None standardize None =
   prepare scaler_fit scaler_apply (Some rs) mask (Some (map (fun s => remove_cal 0 (sname s)) (map SName names))) standardize (Some (map SName names))) /\
  (forall ds, ds <> [] -> forallb is_dec_digit ds = true -> is_calibration (str "cal_" ++ ds) = true /\ remove_cal 0 (str "cal_" ++ ds) = ds) /\
  (forall n, is_calibration n = true -> exists ds, n = str "cal_" ++ ds /\ ds <> [] /\
     (forallb is_dec_digit ds = true \/ exists ds', ds = ds' ++ [newline] /\ ds' <> [] /\ forallb is_dec_digit ds' = true)).
Proof.
  intros V S C sf sa rs mask std names. split; [|split; [exact cal_name|exact cal_name_inv]].
  unfold prepare. rewrite get_schedules_cal. cbn [bind]. fold names. replace (get_expected_states (map SName names)) with (Ok (map (fun s => remove_cal 0 (sname s)) (map SName names)) : result (list pystr)); [reflexivity|].
  symmetry. unfold get_expected_states. rewrite (mapM_ok _ (fun s => remove_cal 0 (sname s))); [reflexivity|]. intros s Hs. apply in_map_iff in Hs. destruct Hs as (n & <- & _). reflexivity.
Qed.
Print Assumptions C51_default.

(** Adding data: the same for the added schedules; the earlier data are gone. *)
Theorem C51_add_data : forall V S C (scaler_fit : list (list V) -> result S) scaler_apply clf_fit (d : disc V S C) r refit ss rows label d',
  (forall s, In s ss -> exp_once (k_results d ++ [r]) (sname s) (Single (rows (sname s))) /\ proper (k_mask d) (rows (sname s))) ->
  add_data scaler_fit scaler_apply clf_fit d r (map (fun s => label (sname s)) ss) refit (Some ss) = Ok d' ->
    k_results d' = k_results d ++ [r] /\ k_schedules d' = k_schedules d ++ ss /\
    (forall n, dget (k_expected d') n = if mem n (map sname ss) then Some (label n) else dget (k_expected d) n) /\
    exists x0, scaled scaler_fit scaler_apply (k_standardize d) (k_scaler d) x0 (k_scaler d') (k_x d') /\ aligned (k_mask d) rows label ss x0 (k_y d').
Proof. intros. eapply add_data_aligned; eassumption. Qed.
Print Assumptions C51_add_data.

(** Concrete data: two calibrations with two and one shots of two qubits. *)
Definition e51_cal : iresult Z := [{| i_name := str "cal_0"; i_mem := Single [[(1, 2); (3, 4)]; [(5, 6); (7, 8)]]%Z; i_shots := 2 |};
  {| i_name := str "cal_1"; i_mem := Single [[(50, 60); (70, 80)]]%Z; i_shots := 1 |}].
(** A nearest-neighbour classifier on the first feature, and a scaler. *)
Definition e51_fit (x : list (list Z)) (y : list pystr) : result (list (list Z * pystr)) := match combine x y with [] => Err ValueError | c => Ok c end.
Definition e51_closer (f : list Z) (a b : list Z * pystr) : list Z * pystr :=
  if (Z.abs (nth 0 (fst b) 0 - nth 0 f 0) <? Z.abs (nth 0 (fst a) 0 - nth 0 f 0))%Z then b else a.
Definition e51_p (c : list (list Z * pystr)) (f : list Z) : pystr := match c with [] => str "0" | a :: c' => snd (fold_left (e51_closer f) c' a) end.
Definition e51_predict (c : list (list Z * pystr)) (x : list (list Z)) : list pystr := map (e51_p c) x.
Definition e51_sfit (x : list (list Z)) : result Z := match x with [] => Err ValueError | f :: _ => Ok (nth 0 f 0%Z) end.
Definition e51_t (s : Z) (f : list Z) : list Z := map (fun v => v - s)%Z f.
Definition e51_sapply (s : Z) (x : list (list Z)) : list (list Z) := map (e51_t s) x.
Example C51_case : exists d, discriminator e51_sfit e51_sapply e51_fit (Some [e51_cal]) [1] None false None = Ok d /\
  k_x d = [[3; 4]; [7; 8]; [70; 80]]%Z /\ k_y d = [str "0"; str "0"; str "1"].
Proof. eexists. vm_compute. repeat split. Qed.
Example C51_case_once : forall s, In s [SName (str "cal_0"); SName (str "cal_1")] ->
  let rows n := if eqb n (str "cal_0") then [[(1, 2); (3, 4)]; [(5, 6); (7, 8)]]%Z else [[(50, 60); (70, 80)]]%Z in
  exp_once [e51_cal] (sname s) (Single (rows (sname s))) /\ proper [1] (rows (sname s)).
Proof.
  intros s [<-|[<-|[]]]; split.
  - exists [], (nth 0 e51_cal {| i_name := []; i_mem := Level2 []; i_shots := 0 |}), (tl e51_cal). repeat split. vm_compute. intros [E|[]]; discriminate.
  - split; [discriminate|]. repeat constructor; discriminate.
  - exists [nth 0 e51_cal {| i_name := []; i_mem := Level2 []; i_shots := 0 |}], (nth 1 e51_cal {| i_name := []; i_mem := Level2 []; i_shots := 0 |}), []. repeat split. vm_compute. intros [E|[]]; discriminate.
  - split; [discriminate|]. repeat constructor; discriminate.
Qed.

(** The same calibration in two results: data are taken from the last result only
    (the documentation says the first), labels from both, so that there are more
    labels than data and no discriminator can be fitted. *)
Theorem C51_training_refuted : exists (rs : list (iresult Z)) mask d, prepare e51_sfit e51_sapply (C := unit) (Some rs) mask None false None = Ok d /\
  length (k_x d) = 6 /\ length (k_y d) = 12 /\
  forall clf_fit, discriminator e51_sfit e51_sapply (C := unit) clf_fit (Some rs) mask None false None = Err ValueError.
Proof.
  exists [e51_cal; e51_cal], [1]. eexists. split; [vm_compute; reflexivity|]. split; [reflexivity|]. split; [reflexivity|]. intros. vm_compute. reflexivity.
Qed.
Print Assumptions C51_training_refuted.
(** Averaged data: one entry per experiment but one label per qubit. *)
Definition e51_avg : iresult Z := [{| i_name := str "cal_0"; i_mem := Avg [(1, 2); (3, 4)]%Z; i_shots := 100 |}; {| i_name := str "cal_1"; i_mem := Avg [(50, 60); (70, 80)]%Z; i_shots := 100 |}].
Theorem C51_average_refuted : exists (rs : list (iresult Z)) mask d, prepare e51_sfit e51_sapply (C := unit) (Some rs) mask None false None = Ok d /\
  length (k_x d) = 2 /\ length (k_y d) = 4.
Proof. exists [e51_avg], [0]. eexists. split; [vm_compute; reflexivity|]. split; reflexivity. Qed.
Print Assumptions C51_average_refuted.

(** Labels given in the order of repeated schedules: only the last is kept. *)
Example C51_repeated_schedule : exists d, prepare e51_sfit e51_sapply (C := unit) (Some [e51_cal]) [0] (Some [str "0"; str "1"]) false (Some [SName (str "cal_0"); SObj (str "cal_0")]) = Ok d /\
  k_y d = [str "1"; str "1"; str "1"; str "1"].
Proof. eexists. vm_compute. split; reflexivity. Qed.
(** Schedule objects without labels are refused. *)
Example C51_schedule_object : prepare e51_sfit e51_sapply (C := unit) (Some [e51_cal]) [0] None false (Some [SObj (str "cal_0")]) = Err AttributeError.
Proof. reflexivity. Qed.

(** * Discriminated counts *)

(** The filter of a fitted discriminator, for single-shot experiments with
    distinct names: every experiment gets the predictions of its own shots, in
    order, and the counts of these predictions, which sum to its shots.  The
    classifier and the scaler work shot by shot. *)
Theorem C51_counts_partial : forall V S C (scaler_fit : list (list V) -> result S) scaler_apply clf_predict t p,
  (forall s x, scaler_apply s x = map (t s) x) -> (forall c x, clf_predict c x = map (p c) x) ->
  forall (d : disc V S C) base b c raw, k_clf d = Some c -> (k_standardize d = true -> k_scaler d <> None) ->
  (base = Some b \/ base = None /\ get_base (k_expected d) = Ok b) -> 2 <= b <= 10 -> (forall f, numeral b (p c f)) ->
  filter level1 raw <> [] -> NoDup (map i_name (filter level1 raw)) ->
  (forall e, In e raw -> level1 e = true -> exists rows, i_mem e = Single rows /\ proper (k_mask d) rows /\ i_shots e = length rows) ->
  exists out, filter_apply scaler_fit scaler_apply clf_predict d base raw = Ok out /\
  Forall2 (fun e o => o_name o = i_name e /\ o_shots o = i_shots e /\ length (o_memory o) = i_shots e /\ counts_of b (o_memory o) (o_counts o) /\
    exists rows fs, i_mem e = Single rows /\ Forall2 (is_feature (k_mask d)) rows fs /\ o_memory o = map (fun f => p c (rescaled t d f)) fs) (filter level1 raw) out.
Proof. intros. eapply filter_summary; eassumption. Qed.
Print Assumptions C51_counts_partial.

(** From calibration data to counts: a classifier that predicts one of the labels
    it was trained with, labels of digits, not only zeros. *)
Theorem C51_end_to_end : forall V S C (scaler_fit : list (list V) -> result S) scaler_apply clf_fit clf_predict t (p : C -> list V -> pystr),
  (forall s x, scaler_apply s x = map (t s) x) -> (forall c x, clf_predict c x = map (p c) x) ->
  forall rs mask standardize ss rows label d raw,
  (forall x y c, clf_fit x y = Ok c -> forall f, In (p c f) y) ->
  (forall s, In s ss -> exp_once rs (sname s) (Single (rows (sname s))) /\ proper mask (rows (sname s))) -> ss <> [] ->
  (forall s, In s ss -> label (sname s) <> [] /\ Forall (fun c => 48 <= nat_of_ascii c < 58) (label (sname s))) ->
  (exists s c, In s ss /\ In c (label (sname s)) /\ nat_of_ascii c <> 48) ->
  discriminator scaler_fit scaler_apply clf_fit (Some rs) mask (Some (map (fun s => label (sname s)) ss)) standardize (Some ss) = Ok d ->
  filter level1 raw <> [] -> NoDup (map i_name (filter level1 raw)) ->
  (forall e, In e raw -> level1 e = true -> exists rows, i_mem e = Single rows /\ proper mask rows /\ i_shots e = length rows) ->
  exists b c out, 2 <= b <= 10 /\ k_clf d = Some c /\ filter_apply scaler_fit scaler_apply clf_predict d None raw = Ok out /\
  Forall2 (fun e o => o_name o = i_name e /\ o_shots o = i_shots e /\ length (o_memory o) = i_shots e /\ counts_of b (o_memory o) (o_counts o) /\
    exists rows fs, i_mem e = Single rows /\ Forall2 (is_feature mask) rows fs /\ o_memory o = map (fun f => p c (rescaled t d f)) fs) (filter level1 raw) out.
Proof. intros. eapply end_to_end; eassumption. Qed.
Print Assumptions C51_end_to_end.

(** The inferred base is one more than the largest digit. *)
Theorem C51_base : forall ex b, get_base ex = Ok b ->
  1 <= b <= 10 /\ (forall n l, In (n, l) ex -> Forall (fun c => 48 <= nat_of_ascii c < 48 + b) l) /\
  (2 <= b -> exists n l c, In (n, l) ex /\ In c l /\ nat_of_ascii c = 48 + (b - 1)).
Proof. exact get_base_ok. Qed.
Print Assumptions C51_base.

(** Labels of zeros only give base 1, in which Python reads no number: no shot is
    ever counted. *)
Theorem C51_zero_labels : forall V S C (scaler_fit : list (list V) -> result S) scaler_apply clf_predict (d : disc V S C) raw out,
  (forall n l, In (n, l) (k_expected d) -> Forall (fun c => c = "0"%char) l) ->
  filter_apply scaler_fit scaler_apply clf_predict d None raw = Ok out -> Forall (fun o => o_memory o = []) out.
Proof.
  intros V S C sf sa cp d raw out H E. unfold filter_apply in E. rewrite (zero_base _ H) in E. cbn [bind] in E. inv_bind E. inv_bind E. inv_bind E.
  destruct (k_clf d) as [c|]; [|discriminate]. destruct (_ =? 0); [discriminate|]. exact (cut_base1 _ _ _ E).
Qed.
Print Assumptions C51_zero_labels.

(** The contracts are met by the classifier and the scaler above. *)
Example C51_contract : (forall s x, e51_sapply s x = map (e51_t s) x) /\ (forall c x, e51_predict c x = map (e51_p c) x) /\
  forall x y c, e51_fit x y = Ok c -> forall f, In (e51_p c f) y.
Proof.
  split; [reflexivity|]. split; [reflexivity|]. unfold e51_fit. intros x y c E f.
  assert (Hc : c <> [] /\ forall a, In a c -> In (snd a) y).
  { destruct (combine x y) as [|a l] eqn:El; [discriminate|]. injection E as <-. split; [discriminate|]. intros [a1 a2] Ha. rewrite <- El in Ha. exact (in_combine_r _ _ _ _ Ha). }
  clear E. destruct Hc as [Hne Hin]. destruct c as [|a c]; [congruence|]. cbn [e51_p]. apply Hin. clear. revert a. induction c as [|b c IH]; intros a; [left; reflexivity|].
  cbn [fold_left]. destruct (IH (e51_closer f a b)) as [E|HI]; [|right; right; exact HI]. rewrite <- E. unfold e51_closer. destruct (_ <? _)%Z; [right; left; reflexivity|left; reflexivity].
Qed.
Definition e51_raw : iresult Z := [{| i_name := str "a"; i_mem := Single [[(0, 0); (60, 0)]; [(0, 0); (4, 0)]; [(0, 0); (99, 0)]]%Z; i_shots := 3 |};
  {| i_name := str "c"; i_mem := Level2 [str "0x1"]; i_shots := 1 |}; {| i_name := str "b"; i_mem := Single [[(0, 0); (1, 0)]]%Z; i_shots := 1 |}].
Example C51_counts_case : (do d <- discriminator e51_sfit e51_sapply e51_fit (Some [e51_cal]) [1] None true None; filter_apply e51_sfit e51_sapply e51_predict d None e51_raw) =
  Ok [{| o_name := str "a"; o_shots := 3; o_memory := [str "1"; str "0"; str "1"]; o_counts := [(str "0x1", 2%Z); (str "0x0", 1%Z)] |};
      {| o_name := str "b"; o_shots := 1; o_memory := [str "0"]; o_counts := [(str "0x0", 1%Z)] |}].
Proof. vm_compute. reflexivity. Qed.

(** Averaged data: the counts do not sum to the shots, and the first experiment
    takes the predictions of the second as well. *)
Theorem C51_counts_refuted : exists d out, discriminator e51_sfit e51_sapply e51_fit (Some [e51_cal]) [1] None false None = Ok d /\
  filter_apply e51_sfit e51_sapply e51_predict d None e51_avg = Ok out /\
  map (fun o => (o_shots o, o_memory o, zsum (dvals (o_counts o)))) out = [(100, [str "0"; str "1"], 2%Z); (100, [], 0%Z)].
Proof. eexists _, _. split; [vm_compute; reflexivity|]. split; vm_compute; reflexivity. Qed.
Print Assumptions C51_counts_refuted.
(** Two experiments with the same name: both get the data of the first. *)
Theorem C51_same_name_refuted : exists d out, discriminator e51_sfit e51_sapply e51_fit (Some [e51_cal]) [1] None false None = Ok d /\
  filter_apply e51_sfit e51_sapply e51_predict d None [{| i_name := str "a"; i_mem := Single [[(0, 0); (60, 0)]]%Z; i_shots := 1 |}; {| i_name := str "a"; i_mem := Single [[(0, 0); (4, 0)]]%Z; i_shots := 1 |}] = Ok out /\
  map (@o_memory) out = [[str "1"]; [str "1"]].
Proof. eexists _, _. split; [vm_compute; reflexivity|]. split; vm_compute; reflexivity. Qed.
Print Assumptions C51_same_name_refuted.
