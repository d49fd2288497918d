(** Training data and discriminated counts. *)
From Coq Require Import Hexadecimal HexadecimalString HexadecimalNat.
From Verif Require Import Base PyStr ResultFacts DiscModel DiscSpec.
Local Open Scope list_scope.
Local Open Scope nat_scope.

Section Data.
Context {V : Type}.

Lemma masked_ok mask (row : list (V * V)) : Forall (fun q => q < length row) mask -> exists f, masked mask row = Ok f /\ is_feature mask row f.
Proof.
  intros H. assert (E : exists sel, mapM (index_e row) mask = Ok sel /\ Forall2 (fun q v => nth_error row q = Some v) mask sel).
  { induction mask as [|q mask IH]; [exists []; split; [reflexivity|constructor]|]. inversion_clear H. destruct (IH H1) as (sel & E & F).
    destruct (nth_error row q) as [v|] eqn:Ev; [|apply nth_error_None in Ev; lia]. exists (v :: sel). split; [|constructor; assumption].
    cbn [mapM]. rewrite (index_ok _ _ _ Ev). cbn [bind]. rewrite E. reflexivity. }
  destruct E as (sel & E & F). exists (map fst sel ++ map snd sel). split; [unfold masked; rewrite E; reflexivity|].
  pose proof (Forall2_length' _ _ _ F) as L. split; [rewrite app_length, !map_length; lia|]. intros i q Hi.
  assert (Hlt : i < length mask) by (apply nth_error_Some; congruence).
  destruct (nth_error sel i) as [v|] eqn:Ev; [|apply nth_error_None in Ev; lia]. exists v.
  split; [exact (Forall2_nth _ _ _ i q v F Hi Ev)|]. split.
  - rewrite nth_error_app1 by (rewrite map_length; lia). rewrite nth_error_map, Ev. reflexivity.
  - rewrite nth_error_app2 by (rewrite map_length; lia). rewrite map_length, L. replace (length sel + i - length sel) with i by lia. rewrite nth_error_map, Ev. reflexivity.
Qed.
Lemma rows_ok mask (rows : list (list (V * V))) : Forall (fun row => row <> [] /\ Forall (fun q => q < length row) mask) rows ->
  exists fs, mapM (masked mask) rows = Ok fs /\ Forall2 (is_feature mask) rows fs.
Proof.
  induction 1 as [|row rows [_ H] _ (fs & E & F)]; [exists []; split; [reflexivity|constructor]|].
  destruct (masked_ok mask row H) as (f & Ef & Hf). exists (f :: fs). split; [|constructor; assumption]. cbn [mapM]. rewrite Ef. cbn [bind]. rewrite E. reflexivity.
Qed.

Lemma find_none (r : iresult V) name : ~ In name (map i_name r) -> get_memory r name = Err QiskitError.
Proof.
  intros H. unfold get_memory. destruct (find _ r) as [e|] eqn:E; [|reflexivity]. apply find_some in E. destruct E as [HI He].
  destruct (eqb_spec (i_name e) name) as [En|]; [|discriminate]. destruct H. rewrite <- En. apply in_map. exact HI.
Qed.
Lemma find_app (r1 r2 : iresult V) e name : i_name e = name -> ~ In name (map i_name r1) -> find (fun e => eqb (i_name e) name) (r1 ++ e :: r2) = Some e.
Proof.
  intros En. induction r1 as [|a r1 IH]; intros H; cbn [app find].
  - rewrite En, eqb_refl. reflexivity.
  - destruct (eqb_spec (i_name a) name) as [Ea|_]; [destruct H; left; exact Ea|]. apply IH. intros HI. apply H. right. exact HI.
Qed.
(** A name that occurs once. *)
Lemma once_split (rs : list (iresult V)) l1 e l2 : concat rs = l1 ++ e :: l2 -> exists rs1 r rs2 r1 r2, rs = rs1 ++ r :: rs2 /\ r = r1 ++ e :: r2 /\ l1 = concat rs1 ++ r1 /\ l2 = r2 ++ concat rs2.
Proof.
  revert l1. induction rs as [|r rs IH]; intros l1 H; [destruct l1; discriminate|]. cbn [concat] in H.
  destruct (Nat.lt_ge_cases (length l1) (length r)) as [Hlt|Hge].
  - exists [], r, rs. apply (f_equal (fun l => (firstn (length l1) l, skipn (length l1) l))) in H.
    rewrite firstn_app, skipn_app, (firstn_app _ l1), (skipn_app _ l1), Nat.sub_diag, firstn_all, skipn_all in H. cbn [firstn skipn app] in H. rewrite app_nil_r in H.
    replace (length l1 - length r) with 0 in H by lia. cbn [firstn skipn] in H. rewrite app_nil_r in H. injection H as H1 H2.
    destruct (skipn (length l1) r) as [|a r2] eqn:Es.
    { apply (f_equal (@length _)) in Es. rewrite skipn_length in Es. cbn in Es. lia. }
    cbn [app] in H2. injection H2 as -> H2. exists l1, r2. cbn [concat app]. repeat split; auto. rewrite <- (firstn_skipn (length l1) r), H1, Es. reflexivity.
  - assert (E : exists l1', l1 = r ++ l1').
    { exists (skipn (length r) l1). apply (f_equal (firstn (length r))) in H. rewrite firstn_app, firstn_all, Nat.sub_diag in H. cbn [firstn] in H. rewrite app_nil_r in H.
      rewrite firstn_app in H. replace (length r - length l1) with 0 in H by lia. cbn [firstn] in H. rewrite app_nil_r in H. rewrite H at 1. symmetry. apply firstn_skipn. }
    destruct E as [l1' ->]. rewrite <- app_assoc in H. apply app_inv_head in H. destruct (IH l1' H) as (rs1 & r' & rs2 & r1 & r2 & -> & Hr & -> & Hl).
    exists (r :: rs1), r', rs2, r1, r2. cbn [concat app]. rewrite <- app_assoc. auto.
Qed.
Definition usable (m : imem V) : Prop := match m with Single [] | Single ([] :: _) | Avg [] => False | _ => True end.
Lemma once_memory (rs : list (iresult V)) name m : exp_once rs name m -> usable m ->
  exists rs1 r rs2, rs = rs1 ++ r :: rs2 /\ get_memory r name = Ok m /\ forall r', In r' rs1 \/ In r' rs2 -> get_memory r' name = Err QiskitError.
Proof.
  intros (l1 & e & l2 & E & En & Em & Hn) Hu. destruct (once_split rs l1 e l2 E) as (rs1 & r & rs2 & r1 & r2 & -> & -> & -> & ->).
  exists rs1, (r1 ++ e :: r2), rs2. split; [reflexivity|].
  rewrite !map_app, !in_app_iff in Hn. split.
  - unfold get_memory. rewrite find_app by (auto; intros HI; apply Hn; tauto). rewrite Em. destruct m as [[|[|v row] rows]|[|v row]|]; try contradiction; reflexivity.
  - intros r' Hr. apply find_none. intros HI. apply Hn. assert (K : forall (rs : list (iresult V)), In r' rs -> In name (map i_name (concat rs))).
    { intros rs H. apply in_map_iff in HI. destruct HI as (a & Ea & Ha). apply in_map_iff. exists a. split; [exact Ea|]. apply in_concat. exists r'. auto. }
    destruct Hr as [Hr|Hr]; apply K in Hr; tauto.
Qed.
Lemma last_memory_once (rs : list (iresult V)) name m : exp_once rs name m -> usable m -> last_memory rs name = Some m.
Proof.
  intros H Hu. destruct (once_memory rs name m H Hu) as (rs1 & r & rs2 & -> & Eg & Hn).
  assert (K : forall (rs : list (iresult V)) acc, (forall r', In r' rs -> get_memory r' name = Err QiskitError) -> fold_left (fun acc r => match get_memory r name with Ok m => Some m | Err _ => acc end) rs acc = acc).
  { clear. induction rs as [|r rs IH]; intros acc H; [reflexivity|]. cbn [fold_left]. rewrite (H r) by (left; reflexivity). apply IH. intros r' HI. apply H. right. exact HI. }
  unfold last_memory. rewrite fold_left_app. cbn [fold_left]. rewrite Eg. apply K. auto.
Qed.
Lemma proper_usable mask (rows : list (list (V * V))) : proper mask rows -> usable (Single rows).
Proof. intros [H1 H2]. destruct rows as [|[|v row] rows]; cbn; auto. inversion_clear H2. tauto. Qed.

(** Data of the schedules, from schedules whose data occur once. *)
Lemma xdata_aligned mask rs (rows : pystr -> list (list (V * V))) ss : (forall s, In s ss -> exp_once rs (sname s) (Single (rows (sname s))) /\ proper mask (rows (sname s))) ->
  exists x, xdata_list mask rs ss = Ok x /\ Forall2 (fun shot f => is_feature mask (snd shot) f) (flat_map (fun s => map (fun row => (sname s, row)) (rows (sname s))) ss) x.
Proof.
  intros H. unfold xdata_list. induction ss as [|s ss IH]; [exists []; split; [reflexivity|constructor]|].
  destruct IH as (x & E & F). { intros s' Hs. apply H. right. exact Hs. }
  destruct (H s (or_introl eq_refl)) as [Ho Hp]. destruct (rows_ok mask (rows (sname s)) (proj2 Hp)) as (fs & Ef & Ff).
  inv_bind E. injection E as <-. exists (fs ++ concat v). cbn [mapM]. rewrite (last_memory_once rs _ _ Ho (proper_usable mask _ Hp)). cbn [format_iq]. rewrite Ef. cbn [bind]. rewrite E0. cbn [bind concat].
  split; [reflexivity|]. cbn [flat_map]. apply Forall2_app; [|exact F]. clear - Ff. induction Ff; cbn [map]; constructor; auto.
Qed.
Lemma ydata_aligned expected rs (rows : pystr -> list (list (V * V))) label ss :
  (forall s, In s ss -> exp_once rs (sname s) (Single (rows (sname s))) /\ usable (Single (rows (sname s))) /\ dget expected (sname s) = Some (label (sname s))) ->
  ydata_list expected rs ss = Ok (map (fun shot => label (fst shot)) (flat_map (fun s => map (fun row => (sname s, row)) (rows (sname s))) ss)).
Proof.
  intros H. unfold ydata_list. induction ss as [|s ss IH]; [reflexivity|].
  assert (IH' := IH (fun s' Hs => H s' (or_intror Hs))). clear IH. inv_bind IH'. injection IH' as E1.
  destruct (H s (or_introl eq_refl)) as (Ho & Hu & Hd). destruct (once_memory rs _ _ Ho Hu) as (rs1 & r & rs2 & -> & Eg & Hn).
  cbn [mapM]. rewrite E. 
  assert (K : mapM (fun r : iresult V => match get_memory r (sname s) with Err _ => Ok [] | Ok m => do n <- first_dim m; do l <- dget_e expected (sname s); Ok (repeat l n) end) (rs1 ++ r :: rs2)
    = Ok (map (fun r' => match get_memory r' (sname s) with Err _ => [] | Ok _ => repeat (label (sname s)) (length (rows (sname s))) end) (rs1 ++ r :: rs2))).
  { apply mapM_ok. intros r' Hr. apply in_app_or in Hr. destruct Hr as [Hr|[<-|Hr]]; [rewrite Hn by auto; reflexivity| |rewrite Hn by auto; reflexivity].
    rewrite Eg. cbn [first_dim bind]. unfold dget_e. rewrite Hd. reflexivity. }
  rewrite K. cbn [bind]. rewrite E1 || idtac. cbn [flat_map]. rewrite map_app. 
  assert (N : forall rs : list (iresult V), (forall r', In r' rs -> get_memory r' (sname s) = Err QiskitError) -> concat (map (fun r' : iresult V => match get_memory r' (sname s) with Err _ => [] | Ok _ => repeat (label (sname s)) (length (rows (sname s))) end) rs) = []).
  { clear. induction rs as [|r rs IH]; intros H; [reflexivity|]. cbn [map concat]. rewrite (H r) by (left; reflexivity). apply IH. intros r' HI. apply H. right. exact HI. }
  rewrite map_app, concat_app. cbn [map concat]. rewrite !N by (intros; apply Hn; auto). rewrite Eg, app_nil_r. cbn [app]. f_equal. f_equal. f_equal.
  - rewrite map_map. cbn [fst]. clear. induction (rows (sname s)) as [|a l IH]; [reflexivity|]. cbn. rewrite IH. reflexivity.
  - exact E1.
Qed.

(** The dictionary of expected states. *)
Lemma add_expected_ok (d : dict pystr pystr) (label : pystr -> pystr) ss : exists d', add_expected d (map (fun s => label (sname s)) ss) ss = Ok d' /\
  forall n, dget d' n = if mem n (map sname ss) then Some (label n) else dget d n.
Proof.
  unfold add_expected. rewrite map_length, Nat.eqb_refl. cbn [negb]. eexists. split; [reflexivity|]. revert d. induction ss as [|s ss IH]; intros d n; [reflexivity|].
  cbn [map combine fold_left fst snd]. rewrite IH. cbn [map]. unfold mem at 2. cbn [existsb]. fold (mem n (map sname ss)). rewrite dget_dset.
  destruct (mem n (map sname ss)) eqn:Em; [rewrite orb_true_r; reflexivity|]. rewrite orb_false_r, (eqb_sym n). destruct (eqb_spec (sname s) n) as [->|]; reflexivity.
Qed.
End Data.

Section Fit.
Context {V S C : Type}.
Variable scaler_fit : list (list V) -> result S.
Variable scaler_apply : S -> list (list V) -> list (list V).
Variable clf_fit : list (list V) -> list pystr -> result C.
Variable clf_predict : C -> list (list V) -> list pystr.

Definition scaled (standardize : bool) (old : option S) (x0 : list (list V)) (new : option S) (x : list (list V)) : Prop :=
  if standardize then exists s, new = Some s /\ x = scaler_apply s x0 /\ (old = Some s \/ old = None /\ scaler_fit x0 = Ok s) else new = old /\ x = x0.
Lemma scale_inv std sc x0 sx : scale scaler_fit scaler_apply std sc x0 = Ok sx -> scaled std sc x0 (fst sx) (snd sx).
Proof.
  unfold scale, scaled. destruct std; cbn [negb]; [|intros H; injection H as <-; auto]. destruct sc as [s|].
  - intros H. injection H as <-. exists s. cbn. auto.
  - intros H. inv_bind H. injection H as <-. exists v. cbn. auto.
Qed.
Lemma scale_std_false sc x0 : scale scaler_fit scaler_apply false sc x0 = Ok (sc, x0).
Proof. reflexivity. Qed.

Lemma fit_inv (d d' : disc V S C) : fit clf_fit d = Ok d' -> k_mask d' = k_mask d /\ k_standardize d' = k_standardize d /\ k_expected d' = k_expected d /\ k_schedules d' = k_schedules d /\ k_results d' = k_results d /\
  k_scaler d' = k_scaler d /\ k_x d' = k_x d /\ k_y d' = k_y d /\ (k_x d <> [] -> length (k_x d) = length (k_y d) /\ exists c, clf_fit (k_x d) (k_y d) = Ok c /\ k_clf d' = Some c).
Proof.
  unfold fit. destruct (Nat.eqb_spec (length (k_x d)) 0) as [E|E].
  - intros H. injection H as <-. repeat split; auto; destruct (k_x d); congruence || discriminate.
  - destruct (Nat.eqb_spec (length (k_x d)) (length (k_y d))) as [El|]; cbn [negb]; [|discriminate]. intros H. inv_bind H. injection H as <-. cbn. repeat split; auto. exists v. auto.
Qed.

Lemma prepare_aligned rs mask std ss rows label :
  (forall s, In s ss -> exp_once rs (sname s) (Single (rows (sname s))) /\ proper mask (rows (sname s))) ->
  (forall d, prepare scaler_fit scaler_apply (V := V) (S := S) (C := C) (Some rs) mask (Some (map (fun s => label (sname s)) ss)) std (Some ss) = Ok d ->
    k_schedules d = ss /\ (forall n, dget (k_expected d) n = if mem n (map sname ss) then Some (label n) else None) /\
    exists x0, scaled std None x0 (k_scaler d) (k_x d) /\ aligned mask rows label ss x0 (k_y d)) /\
  (std = false -> exists d, prepare scaler_fit scaler_apply (V := V) (S := S) (C := C) (Some rs) mask (Some (map (fun s => label (sname s)) ss)) std (Some ss) = Ok d).
Proof.
  intros H. unfold prepare. cbn [bind]. destruct (add_expected_ok [] label ss) as (ex & Ee & He). rewrite Ee. cbn [bind].
  destruct (xdata_aligned mask rs rows ss H) as (x0 & Ex & Fx). rewrite Ex. cbn [bind].
  assert (Ey := ydata_aligned ex rs rows label ss). rewrite Ey. 2: { intros s Hs. destruct (H s Hs) as [A B]. split; [exact A|]. split; [exact (proper_usable mask _ B)|]. rewrite He.
    replace (mem (sname s) (map sname ss)) with true; [reflexivity|]. symmetry. apply mem_In. apply in_map. exact Hs. }
  split.
  - intros d E. inv_bind E. cbn [bind] in E. injection E as <-. cbn. split; [reflexivity|]. split; [exact He|]. exists x0. split; [apply (scale_inv std None x0 v E0)|]. eexists. split; [reflexivity|]. split; [exact Fx|reflexivity].
  - intros ->. rewrite scale_std_false. cbn [bind]. eexists. reflexivity.
Qed.
Lemma add_data_aligned (d : disc V S C) r refit ss rows label d' :
  (forall s, In s ss -> exp_once (k_results d ++ [r]) (sname s) (Single (rows (sname s))) /\ proper (k_mask d) (rows (sname s))) ->
  add_data scaler_fit scaler_apply clf_fit d r (map (fun s => label (sname s)) ss) refit (Some ss) = Ok d' ->
    k_results d' = k_results d ++ [r] /\ k_schedules d' = k_schedules d ++ ss /\ (forall n, dget (k_expected d') n = if mem n (map sname ss) then Some (label n) else dget (k_expected d) n) /\
    exists x0, scaled (k_standardize d) (k_scaler d) x0 (k_scaler d') (k_x d') /\ aligned (k_mask d) rows label ss x0 (k_y d').
Proof.
  intros H. unfold add_data. cbn [bind]. destruct (add_expected_ok (k_expected d) label ss) as (ex & Ee & He). rewrite Ee. cbn [bind].
  destruct (xdata_aligned (k_mask d) _ rows ss H) as (x0 & Ex & Fx). rewrite Ex. cbn [bind].
  assert (Ey := ydata_aligned ex (k_results d ++ [r]) rows label ss). rewrite Ey. 2: { intros s Hs. destruct (H s Hs) as [A B]. split; [exact A|]. split; [exact (proper_usable _ _ B)|]. rewrite He.
    replace (mem (sname s) (map sname ss)) with true; [reflexivity|]. symmetry. apply mem_In. apply in_map. exact Hs. }
  intros E. inv_bind E. cbn [bind] in E.
  assert (G : exists d0, (if refit then fit clf_fit d0 else Ok d0) = Ok d' /\ k_results d0 = k_results d ++ [r] /\ k_schedules d0 = k_schedules d ++ ss /\ k_expected d0 = ex /\ k_scaler d0 = fst v /\ k_x d0 = snd v /\
    k_y d0 = map (fun shot => label (fst shot)) (flat_map (fun s => map (fun row => (sname s, row)) (rows (sname s))) ss)).
  { eexists. split; [exact E|]. cbn. auto 10. }
  clear E. destruct G as (d0 & E & A1 & A2 & A3 & A4 & A5 & A6).
  assert (G : k_results d' = k_results d0 /\ k_schedules d' = k_schedules d0 /\ k_expected d' = k_expected d0 /\ k_scaler d' = k_scaler d0 /\ k_x d' = k_x d0 /\ k_y d' = k_y d0).
  { destruct refit; [apply fit_inv in E; tauto|injection E as <-; auto 10]. }
  destruct G as (-> & -> & -> & -> & -> & ->). split; [exact A1|]. split; [exact A2|]. split; [rewrite A3; exact He|]. exists x0. rewrite A4, A5. split; [apply (scale_inv _ _ x0 v E0)|].
  eexists. split; [reflexivity|]. split; [exact Fx|exact A6].
Qed.
End Fit.

(** ** Counts *)
Lemma hexs_inj a b : hexs a = hexs b -> a = b.
Proof.
  unfold hexs. intros H. apply app_inv_head in H. apply (f_equal string_of_list_ascii) in H. rewrite !string_of_list_ascii_of_string in H.
  assert (Hz : forall n, Nat.to_hex_uint n <> Nil).
  { intros [|n]; [discriminate|]. intros E. pose proof (HexadecimalNat.Unsigned.of_to (Datatypes.S n)) as K. rewrite E in K. discriminate. }
  apply (f_equal NilZero.uint_of_string) in H. rewrite !NilZero.usu in H by apply Hz. injection H as H. exact (HexadecimalNat.Unsigned.to_uint_inj _ _ H).
Qed.

Lemma digits_index c v : list_index (str "0123456789") c = Some v <-> v < 10 /\ nat_of_ascii c = 48 + v.
Proof.
  split.
  - intros H. pose proof (list_index_nth _ _ _ H) as Hn. assert (Hv : v < 10) by (change 10 with (length (str "0123456789")); apply nth_error_Some; congruence).
    split; [exact Hv|]. do 10 (destruct v as [|v]; [cbn in Hn; injection Hn as <-; reflexivity|]). lia.
  - intros [Hv Hc]. replace c with (ascii_of_nat (48 + v)) by (rewrite <- Hc; apply ascii_nat_embedding).
    do 10 (destruct v as [|v]; [reflexivity|]). lia.
Qed.

Lemma int_base_ok b label : 2 <= b <= 10 -> numeral b label -> int_base b label = Ok (value b label).
Proof.
  intros Hb [Hne Hd]. unfold int_base. destruct (Nat.ltb_spec b 2); [lia|]. destruct (eqb_spec label []); [congruence|].
  unfold value. generalize 0. induction Hd as [|c l Hc _ IH]; intros a; [reflexivity|]. cbn [foldM fold_left].
  replace (list_index (str "0123456789") c) with (Some (digit c)) by (symmetry; apply digits_index; unfold digit; lia).
  destruct (Nat.ltb_spec (digit c) b) as [_|Hge]; [|unfold digit in Hge; lia]. cbn [bind]. destruct l as [|c' l']; [reflexivity|]. apply IH; discriminate.
Qed.

Lemma zsum_dset_add (d : dict pystr Z) k z : NoDup (dkeys d) -> zsum (dvals (dset d k (dget0 d k + z)%Z)) = (zsum (dvals d) + z)%Z.
Proof.
  induction d as [|[k' v'] d IH]; intros Hnd.
  - unfold dget0, dvals. cbn [dget dset map snd]. cbn. lia.
  - unfold dget0. cbn [dset dget]. destruct (eqb_spec k k') as [->|Hn].
    + rewrite !dvals_cons. unfold dvals. cbn [zsum fold_right]. lia.
    + rewrite dkeys_cons in Hnd. inversion_clear Hnd. rewrite !dvals_cons. specialize (IH H0). unfold dget0 in IH. cbn [zsum fold_right] in *. lia.
Qed.
Lemma count_ok b labels : 2 <= b <= 10 -> Forall (numeral b) labels -> exists c, count b labels = Ok c /\ counts_of b labels c.
Proof.
  intros Hb. unfold count, counts_of.
  assert (G : forall d, NoDup (dkeys d) -> Forall (numeral b) labels ->
    exists c, foldM (fun d l => do v <- int_base b l; Ok (dset d (hexs v) (dget0 d (hexs v) + 1)%Z)) labels d = Ok c /\ NoDup (dkeys c) /\
      zsum (dvals c) = (zsum (dvals d) + Z.of_nat (length labels))%Z /\
      (forall v, dget0 c (hexs v) = (dget0 d (hexs v) + Z.of_nat (length (filter (fun l => (value b l =? v)%nat) labels)))%Z) /\
      forall k, In k (dkeys c) -> In k (dkeys d) \/ exists l, In l labels /\ k = hexs (value b l)).
  { induction labels as [|l labels IH]; intros d Hnd Hf.
    - exists d. split; [reflexivity|]. cbn [length filter]. repeat split; auto; intros; lia.
    - inversion_clear Hf. cbn [foldM]. rewrite (int_base_ok b l Hb H). cbn [bind].
      destruct (IH (dset d (hexs (value b l)) (dget0 d (hexs (value b l)) + 1)%Z)) as (c & E & A & B & D & F); [apply NoDup_dset; exact Hnd|exact H0|].
      exists c. split; [exact E|]. split; [exact A|]. split; [rewrite B, zsum_dset_add by exact Hnd; cbn [length]; lia|]. split.
      + intros v. rewrite D, dget0_dset. cbn [filter]. destruct (eqb_spec (hexs v) (hexs (value b l))) as [Ev|Ev].
        * apply hexs_inj in Ev. rewrite <- Ev, Nat.eqb_refl. cbn [length]. lia.
        * destruct (Nat.eqb_spec (value b l) v) as [Ev'|_]; [congruence|]. lia.
      + intros k Hk. destruct (F k Hk) as [K|(l' & K1 & K2)].
        * apply In_dkeys_dset in K. destruct K as [->|K]; [right; exists l; split; [left; reflexivity|reflexivity]|left; exact K].
        * right. exists l'. split; [right; exact K1|exact K2]. }
  intros Hf. destruct (G [] (NoDup_nil _) Hf) as (c & E & A & B & D & F). exists c. split; [exact E|]. split; [exact A|]. split; [rewrite B; reflexivity|]. split.
  - intros v. rewrite D. reflexivity.
  - intros k Hk. destruct (F k Hk) as [[]|K]. exact K.
Qed.

(** The base. *)
Lemma get_base_ok (ex : dict pystr pystr) b : get_base ex = Ok b ->
  1 <= b <= 10 /\ (forall n l, In (n, l) ex -> Forall (fun c => 48 <= nat_of_ascii c < 48 + b) l) /\
  (2 <= b -> exists n l c, In (n, l) ex /\ In c l /\ nat_of_ascii c = 48 + (b - 1)).
Proof.
  unfold get_base. intros H. inv_bind H. injection H as <-.
  assert (G : forall cs a v, foldM (fun base c => do v <- digit_value c; Ok (if v <? base then base else v)) cs a = Ok v -> a < 10 ->
    a <= v < 10 /\ Forall (fun c => 48 <= nat_of_ascii c < 48 + (v + 1)) cs /\ (v = a \/ exists c, In c cs /\ nat_of_ascii c = 48 + v)).
  { clear. induction cs as [|c cs IH]; intros a v H Ha; cbn [foldM] in H; [injection H as <-; split; [lia|]; split; [constructor|auto]|].
    inv_bind H. inv_bind E. injection E as E. subst v0. unfold digit_value in E0. destruct (list_index _ c) as [w|] eqn:Ei; [|discriminate]. injection E0 as ->. apply digits_index in Ei.
    destruct (Nat.ltb_spec v1 a) as [Hlt|Hge].
    - destruct (IH a v H Ha) as (A & B & D). split; [lia|]. split; [constructor; [lia|exact B]|]. destruct D as [D|(c' & D1 & D2)]; [auto|right; exists c'; split; [right; exact D1|exact D2]].
    - destruct (IH v1 v H ltac:(lia)) as (A & B & D). split; [lia|]. split; [constructor; [lia|exact B]|]. right. destruct D as [->|(c' & D1 & D2)]; [exists c; split; [left; reflexivity|lia]|exists c'; split; [right; exact D1|exact D2]]. }
  destruct (G _ _ _ E ltac:(lia)) as (A & B & D). split; [lia|]. split.
  - intros n l HI. rewrite Forall_forall in B |- *. intros c Hc. apply B. apply in_concat. exists l. split; [|exact Hc]. apply in_map_iff. exists (n, l). auto.
  - intros Hb. destruct D as [D|(c & D1 & D2)]; [lia|]. apply in_concat in D1. destruct D1 as (l & Hl & Hc). apply in_map_iff in Hl. destruct Hl as ([n l'] & El & HI). cbn in El. subst l'.
    exists n, l, c. repeat split; auto. lia.
Qed.
Lemma get_base_total (ex : dict pystr pystr) : (forall n l, In (n, l) ex -> Forall (fun c => 48 <= nat_of_ascii c < 58) l) -> exists b, get_base ex = Ok b.
Proof.
  intros H. unfold get_base.
  assert (G : forall cs a, Forall (fun c => 48 <= nat_of_ascii c < 58) cs -> exists v, foldM (fun base c => do v <- digit_value c; Ok (if v <? base then base else v)) cs a = Ok v).
  { clear. induction cs as [|c cs IH]; intros a Hf; [exists a; reflexivity|]. inversion_clear Hf. cbn [foldM]. unfold digit_value at 1.
    replace (list_index (str "0123456789") c) with (Some (digit c)) by (symmetry; apply digits_index; unfold digit; lia). cbn [bind]. apply IH. exact H0. }
  destruct (G (concat (map snd ex)) 0) as [v E].
  - rewrite Forall_forall. intros c Hc. apply in_concat in Hc. destruct Hc as (l & Hl & Hc). apply in_map_iff in Hl. destruct Hl as ([n l'] & El & HI). cbn in El. subst l'.
    specialize (H n l HI). rewrite Forall_forall in H. apply H. exact Hc.
  - rewrite E. cbn [bind]. eexists. reflexivity.
Qed.

(** All names of a result. *)
Lemma get_schedules_all {V} (r : iresult V) : get_schedules [r] 2 = Ok (map (fun e => SName (i_name e)) r).
Proof.
  unfold get_schedules. cbn [concat]. rewrite app_nil_r.
  assert (G : forall acc, foldM (fun acc e => do w <- wanted 2 (i_name e); Ok (if w : bool then acc ++ [SName (i_name e)] else acc)) r acc = Ok (acc ++ map (fun e => SName (i_name e)) r)).
  { induction r as [|e r IH]; intros acc; cbn [foldM map]; [rewrite app_nil_r; reflexivity|]. cbn [wanted bind]. rewrite IH, <- app_assoc. reflexivity. }
  apply (G []).
Qed.
Lemma get_schedules_cal {V} (rs : list (iresult V)) : get_schedules rs 0 = Ok (map SName (filter is_calibration (map i_name (concat rs)))).
Proof.
  unfold get_schedules. generalize (concat rs). intros r.
  assert (G : forall acc, foldM (fun acc e => do w <- wanted 0 (i_name e); Ok (if w : bool then acc ++ [SName (i_name e)] else acc)) r acc = Ok (acc ++ map SName (filter is_calibration (map i_name r)))).
  { induction r as [|e r IH]; intros acc; cbn [foldM map filter]; [rewrite app_nil_r; reflexivity|]. cbn [wanted bind]. rewrite IH. destruct (is_calibration (i_name e)); [|reflexivity]. cbn [map]. rewrite <- app_assoc. reflexivity. }
  apply (G []).
Qed.

(** The names 'cal_' followed by digits, and their labels. *)
Lemma starts_self p s : starts p (p ++ s) = true.
Proof. induction p as [|a p IH]; [reflexivity|]. cbn. rewrite eqb_refl. exact IH. Qed.
Lemma remove_digits ds : forallb is_dec_digit ds = true -> remove_cal 0 ds = ds.
Proof.
  induction ds as [|a ds IH]; [reflexivity|]. cbn [forallb]. intros H. apply andb_true_iff in H. destruct H as [H1 H2]. cbn [remove_cal].
  replace (starts (str "cal_") (a :: ds)) with false; [rewrite (IH H2); reflexivity|]. symmetry. cbn [str list_ascii_of_string starts]. destruct (eqb_spec "c"%char a) as [<-|]; [discriminate H1|reflexivity].
Qed.
Lemma cal_name ds : ds <> [] -> forallb is_dec_digit ds = true -> is_calibration (str "cal_" ++ ds) = true /\ remove_cal 0 (str "cal_" ++ ds) = ds.
Proof.
  intros Hne Hd. split.
  - unfold is_calibration. rewrite starts_self. cbn [andb str list_ascii_of_string app skipn]. unfold cal_digits. rewrite Hd. destruct (eqb_spec ds []); [congruence|]. reflexivity.
  - change (remove_cal 0 (str "cal_" ++ ds)) with (if starts (str "cal_") (str "cal_" ++ ds) then remove_cal 0 ds else "c"%char :: remove_cal 0 (skipn 1 (str "cal_" ++ ds))). rewrite starts_self. apply remove_digits. exact Hd.
Qed.
Lemma cal_name_inv n : is_calibration n = true -> exists ds, n = str "cal_" ++ ds /\ ds <> [] /\ (forallb is_dec_digit ds = true \/ exists ds', ds = ds' ++ [newline] /\ ds' <> [] /\ forallb is_dec_digit ds' = true).
Proof.
  unfold is_calibration. intros H. apply andb_true_iff in H. destruct H as [H1 H2].
  assert (E : n = str "cal_" ++ skipn 4 n). { do 4 (destruct n as [|? n]; [cbn in H1; rewrite ?andb_false_r in H1; discriminate|]). cbn in H1. repeat (apply andb_true_iff in H1; destruct H1 as [? H1]).
    repeat match goal with K : eqb _ _ = true |- _ => apply eqb_true in K; subst end. reflexivity. }
  exists (skipn 4 n). split; [exact E|]. set (r := skipn 4 n) in *. clearbody r. unfold cal_digits in H2. apply orb_true_iff in H2. destruct H2 as [H2|H2].
  - apply andb_true_iff in H2. destruct H2 as [A B]. split; [intros ->; discriminate|]. auto.
  - apply andb_true_iff in H2. destruct H2 as [A B]. apply andb_true_iff in B. destruct B as [B D].
    assert (Hr : r <> []) by (intros ->; discriminate). split; [exact Hr|]. right. exists (removelast r). split; [|split; [intros E'; rewrite E' in B; discriminate|exact D]].
    rewrite (app_removelast_last "x"%char Hr) at 1. apply eqb_true in A. rewrite A. reflexivity.
Qed.

Section Filter.
Context {V S C : Type}.
Variable scaler_fit : list (list V) -> result S.
Variable scaler_apply : S -> list (list V) -> list (list V).
Variable clf_fit : list (list V) -> list pystr -> result C.
Variable clf_predict : C -> list (list V) -> list pystr.
Variable t : S -> list V -> list V.
Variable p : C -> list V -> pystr.
Hypothesis Ht : forall s x, scaler_apply s x = map (t s) x.
Hypothesis Hp : forall c x, clf_predict c x = map (p c) x.

(** What is classified: the features, scaled if the discriminator says so. *)
Definition rescaled (d : disc V S C) (f : list V) : list V := if k_standardize d then match k_scaler d with Some s => t s f | None => f end else f.

Lemma find_nodup (r : iresult V) e : NoDup (map i_name r) -> In e r -> find (fun e' => eqb (i_name e') (i_name e)) r = Some e.
Proof.
  induction r as [|a r IH]; [intros _ []|]. cbn [map find]. intros H. inversion_clear H. intros [->|HI]; [rewrite eqb_refl; reflexivity|].
  destruct (eqb_spec (i_name a) (i_name e)) as [E|_]; [destruct H0; rewrite E; apply in_map; exact HI|]. apply IH; assumption.
Qed.
Lemma xdata_one_ok mask (exps : iresult V) : NoDup (map i_name exps) ->
  (forall e, In e exps -> exists rows, i_mem e = Single rows /\ proper mask rows) ->
  exists fss, xdata_one mask exps (map (fun e => SName (i_name e)) exps) = Ok (concat fss) /\
    Forall2 (fun e fs => exists rows, i_mem e = Single rows /\ Forall2 (is_feature mask) rows fs) exps fss.
Proof.
  intros Hnd H. unfold xdata_one.
  assert (G : forall l, (forall e, In e l -> In e exps) -> exists fss, mapM (fun s => do m <- get_memory exps (sname s); format_iq mask m) (map (fun e => SName (i_name e)) l) = Ok fss /\
    Forall2 (fun e fs => exists rows, i_mem e = Single rows /\ Forall2 (is_feature mask) rows fs) l fss).
  { induction l as [|e l IH]; intros Hl; [exists []; split; [reflexivity|constructor]|].
    destruct IH as (fss & E & F). { intros e' He. apply Hl. right. exact He. }
    destruct (H e (Hl e (or_introl eq_refl))) as (rows & Em & Hpr). destruct (rows_ok mask rows (proj2 Hpr)) as (fs & Ef & Ff).
    exists (fs :: fss). split; [|constructor; [exists rows; auto|exact F]]. cbn [map mapM sname]. unfold get_memory at 1. rewrite (find_nodup exps e Hnd (Hl e (or_introl eq_refl))), Em.
    pose proof (proper_usable mask rows Hpr) as Hu. destruct rows as [|[|v row] rows]; try contradiction. cbn [bind format_iq]. rewrite Ef. cbn [bind]. rewrite E. reflexivity. }
  destruct (G exps (fun _ h => h)) as (fss & E & F). exists fss. rewrite E. split; [reflexivity|exact F].
Qed.

Lemma cut_ok b (q : list V -> pystr) exps fss : 2 <= b <= 10 -> (forall f, numeral b (q f)) -> Forall2 (fun e fs => i_shots e = length fs) (exps : iresult V) fss ->
  exists out, cut b exps (map q (concat fss)) = Ok out /\
  Forall2 (fun ef o => o_name o = i_name (fst ef) /\ o_shots o = i_shots (fst ef) /\ o_memory o = map q (snd ef) /\ counts_of b (o_memory o) (o_counts o)) (combine exps fss) out.
Proof.
  intros Hb Hq F. induction F as [|e fs exps fss E F IH]; [exists []; split; [reflexivity|constructor]|].
  destruct IH as (out & Eo & Fo). cbn [concat cut combine]. rewrite map_app.
  assert (E1 : firstn (i_shots e) (map q fs ++ map q (concat fss)) = map q fs) by (rewrite E, firstn_app, map_length, Nat.sub_diag; cbn [firstn]; rewrite app_nil_r, <- (map_length q fs); apply firstn_all).
  assert (E2 : skipn (i_shots e) (map q fs ++ map q (concat fss)) = map q (concat fss)) by (rewrite E, skipn_app, map_length, Nat.sub_diag, <- (map_length q fs), skipn_all; reflexivity).
  rewrite E1, E2, Eo. destruct (count_ok b (map q fs) Hb) as (c & Ec & Hc). { rewrite Forall_forall. intros l Hl. apply in_map_iff in Hl. destruct Hl as (f & <- & _). apply Hq. }
  rewrite Ec. cbn [bind]. eexists. split; [reflexivity|]. constructor; [|exact Fo]. cbn. auto.
Qed.

Lemma filter_summary (d : disc V S C) base b c raw : k_clf d = Some c -> (k_standardize d = true -> k_scaler d <> None) ->
  (base = Some b \/ base = None /\ get_base (k_expected d) = Ok b) -> 2 <= b <= 10 -> (forall f, numeral b (p c f)) ->
  filter level1 raw <> [] -> NoDup (map i_name (filter level1 raw)) ->
  (forall e, In e raw -> level1 e = true -> exists rows, i_mem e = Single rows /\ proper (k_mask d) rows /\ i_shots e = length rows) ->
  exists out, filter_apply scaler_fit scaler_apply clf_predict d base raw = Ok out /\
  Forall2 (fun e o => o_name o = i_name e /\ o_shots o = i_shots e /\ length (o_memory o) = i_shots e /\ counts_of b (o_memory o) (o_counts o) /\
    exists rows fs, i_mem e = Single rows /\ Forall2 (is_feature (k_mask d)) rows fs /\ o_memory o = map (fun f => p c (rescaled d f)) fs) (filter level1 raw) out.
Proof.
  intros Hc Hsc Hbase Hb Hn Hne Hnd H. set (exps := filter level1 raw) in *.
  assert (He : forall e, In e exps -> exists rows, i_mem e = Single rows /\ proper (k_mask d) rows /\ i_shots e = length rows).
  { intros e HI. apply filter_In in HI. destruct HI. apply H; assumption. }
  destruct (xdata_one_ok (k_mask d) exps Hnd) as (fss & Ex & Fx). { intros e HI. destruct (He e HI) as (rows & A & B & _). exists rows. auto. }
  assert (Fl : Forall2 (fun e fs => i_shots e = length fs) exps fss).
  { clear - Fx He. induction Fx as [|e fs exps fss (rows & Em & Fr) F IH]; [constructor|]. constructor.
    - destruct (He e (or_introl eq_refl)) as (rows' & Em' & _ & Es). rewrite Em in Em'. injection Em' as <-. rewrite Es. apply (Forall2_length' _ _ _ Fr).
    - apply IH. intros e' HI. apply He. right. exact HI. }
  assert (Hx : concat fss <> []).
  { destruct exps as [|e exps]; [congruence|]. inversion Fx as [|? fs ? fss' (rows & Em & Fr) F]; subst. destruct (He e (or_introl eq_refl)) as (rows' & Em' & [Hr _] & _). rewrite Em in Em'. injection Em' as <-.
    inversion Fr; subst; [congruence|discriminate]. }
  destruct (cut_ok b (fun f => p c (rescaled d f)) exps fss Hb (fun f => Hn (rescaled d f)) Fl) as (out & Eo & Fo).
  exists out. split.
  - unfold filter_apply. replace (match base with Some (Datatypes.S b0) => Ok (Datatypes.S b0) | _ => get_base (k_expected d) end) with (Ok b : result nat).
    2: { destruct Hbase as [->|[-> E]]; [destruct b; [lia|reflexivity]|symmetry; exact E]. }
    cbn [bind]. fold exps. replace (get_schedules [exps] 2) with (Ok (map (fun e : iexp V => SName (i_name e)) exps) : result (list sched)) by (symmetry; apply get_schedules_all). cbn [bind]. rewrite Ex. cbn [bind].
    assert (Es : exists s', scale scaler_fit scaler_apply (k_standardize d) (k_scaler d) (concat fss) = Ok (s', map (rescaled d) (concat fss))).
    { unfold scale, rescaled. destruct (k_standardize d); cbn [negb].
      - destruct (k_scaler d) as [s|]; [|destruct (Hsc eq_refl eq_refl)]. rewrite Ht. eexists. reflexivity.
      - rewrite map_id. eexists. reflexivity. }
    destruct Es as [s' Es]. rewrite Es. cbn [bind fst snd]. rewrite Hc, map_length. destruct (Nat.eqb_spec (length (concat fss)) 0) as [E0|_]; [destruct (concat fss); [congruence|discriminate]|].
    rewrite Hp, map_map. exact Eo.
  - clear - Fx Fl Fo. revert out Fo. induction Fx as [|e fs exps fss (rows & Em & Fr) F IH]; intros out Fo; inversion Fo; subst; [constructor|].
    inversion Fl; subst. constructor; [|apply IH; assumption]. destruct H1 as (A & B & D & E). cbn [fst snd] in *. split; [exact A|]. split; [exact B|]. split; [rewrite D, map_length; congruence|]. split; [exact E|].
    exists rows, fs. auto.
Qed.

(** From calibration to counts. *)
Lemma add_expected_values (label : pystr -> pystr) ss ex : add_expected [] (map (fun s => label (sname s)) ss) ss = Ok ex -> forall n l, In (n, l) ex -> exists s, In s ss /\ l = label (sname s).
Proof.
  unfold add_expected. rewrite map_length, Nat.eqb_refl. cbn [negb]. intros H. injection H as <-.
  assert (K : forall (d : dict pystr pystr) k v n l, In (n, l) (dset d k v) -> (n, l) = (k, v) \/ In (n, l) d).
  { clear. induction d as [|[k' v'] d IH]; intros k v n l; cbn [dset]; [intros [E|[]]; auto|]. destruct (eqb_spec k k') as [<-|]; cbn [In].
    - intros [E|HI]; auto.
    - intros [E|HI]; [auto|]. destruct (IH k v n l HI); auto. }
  assert (G : forall l' (d : dict pystr pystr), (forall s, In s l' -> In s ss) -> (forall n l, In (n, l) d -> exists s, In s ss /\ l = label (sname s)) ->
    forall n l, In (n, l) (fold_left (fun d sl => dset d (sname (fst sl)) (snd sl)) (combine l' (map (fun s => label (sname s)) l')) d) -> exists s, In s ss /\ l = label (sname s)).
  { induction l' as [|s l' IH]; intros d Hl Hd n l HI; [exact (Hd n l HI)|]. cbn [map combine fold_left fst snd] in HI. apply (IH _ (fun s' h => Hl s' (or_intror h))) in HI; [exact HI|].
    intros n' l0 H0. apply K in H0. destruct H0 as [H0|H0]; [injection H0 as -> ->; exists s; split; [apply Hl; left; reflexivity|reflexivity]|exact (Hd n' l0 H0)]. }
  intros n l HI. apply (G ss [] (fun _ h => h)) with (n := n); [intros ? ? []|exact HI].
Qed.
Lemma prepare_values rs mask std ss label d : prepare scaler_fit scaler_apply (V := V) (S := S) (C := C) (Some rs) mask (Some (map (fun s => label (sname s)) ss)) std (Some ss) = Ok d ->
  k_mask d = mask /\ k_standardize d = std /\ forall n l, In (n, l) (k_expected d) -> exists s, In s ss /\ l = label (sname s).
Proof.
  unfold prepare. cbn [bind]. intros H. inv_bind H. inv_bind H. inv_bind H. inv_bind H. injection H as <-. cbn. repeat split. apply (add_expected_values label ss). exact E.
Qed.

Lemma end_to_end rs mask std ss rows label d raw :
  (forall x y c, clf_fit x y = Ok c -> forall f, In (p c f) y) ->
  (forall s, In s ss -> exp_once rs (sname s) (Single (rows (sname s))) /\ proper mask (rows (sname s))) -> ss <> [] ->
  (forall s, In s ss -> label (sname s) <> [] /\ Forall (fun c => 48 <= nat_of_ascii c < 58) (label (sname s))) ->
  (exists s c, In s ss /\ In c (label (sname s)) /\ nat_of_ascii c <> 48) ->
  discriminator scaler_fit scaler_apply clf_fit (Some rs) mask (Some (map (fun s => label (sname s)) ss)) std (Some ss) = Ok d ->
  filter level1 raw <> [] -> NoDup (map i_name (filter level1 raw)) ->
  (forall e, In e raw -> level1 e = true -> exists rows, i_mem e = Single rows /\ proper mask rows /\ i_shots e = length rows) ->
  exists b c out, 2 <= b <= 10 /\ k_clf d = Some c /\ filter_apply scaler_fit scaler_apply clf_predict d None raw = Ok out /\
  Forall2 (fun e o => o_name o = i_name e /\ o_shots o = i_shots e /\ length (o_memory o) = i_shots e /\ counts_of b (o_memory o) (o_counts o) /\
    exists rows fs, i_mem e = Single rows /\ Forall2 (is_feature mask) rows fs /\ o_memory o = map (fun f => p c (rescaled d f)) fs) (filter level1 raw) out.
Proof.
  intros Hcl Htr Hss Hlab (s0 & ch & Hs0 & Hch & Hnz) Hd Hne Hnd Hraw.
  unfold discriminator in Hd. inv_bind Hd. rename v into d0, E into Ed0.
  destruct (prepare_aligned scaler_fit scaler_apply (C := C) rs mask std ss rows label Htr) as [Hal _]. destruct (Hal d0 Ed0) as (_ & Hex & x0 & Hsc & shots & Eshots & Fx & Ey).
  destruct (prepare_values rs mask std ss label d0 Ed0) as (Em & Est & Hval).
  pose proof (fit_inv clf_fit d0 d Hd) as (F1 & F2 & F3 & _ & _ & F6 & F7 & F8 & F9).
  assert (Hx : k_x d0 <> []).
  { assert (Hx0 : x0 <> []). { destruct ss as [|s ss]; [congruence|]. destruct (Htr s (or_introl eq_refl)) as [_ [Hr _]]. cbn [flat_map] in Eshots. destruct (rows (sname s)) as [|row rws]; [congruence|]. cbn [map app] in Eshots. subst shots. inversion Fx. discriminate. }
    unfold scaled in Hsc. destruct std; [|destruct Hsc as [_ ->]; exact Hx0]. destruct Hsc as (s & _ & -> & _). rewrite Ht. destruct x0; [congruence|discriminate]. }
  destruct (F9 Hx) as (_ & c & Ec & Hclf).
  assert (Hdig : forall n l, In (n, l) (k_expected d) -> Forall (fun c => 48 <= nat_of_ascii c < 58) l).
  { intros n l HI. rewrite F3 in HI. destruct (Hval n l HI) as (s & Hs & ->). apply (Hlab s Hs). }
  destruct (get_base_total (k_expected d) Hdig) as [b Eb]. destruct (get_base_ok _ _ Eb) as (B1 & B2 & _).
  assert (Hin : forall s, In s ss -> In (sname s, label (sname s)) (k_expected d)).
  { intros s Hs. rewrite F3. apply dget_Some_In. rewrite Hex. replace (mem (sname s) (map sname ss)) with true; [reflexivity|]. symmetry. apply mem_In. apply in_map. exact Hs. }
  assert (Hb2 : 2 <= b <= 10).
  { specialize (B2 _ _ (Hin s0 Hs0)). rewrite Forall_forall in B2. specialize (B2 ch Hch). lia. }
  assert (Hnum : forall f, numeral b (p c f)).
  { intros f. pose proof (Hcl _ _ _ Ec f) as HI. rewrite Ey in HI. apply in_map_iff in HI. destruct HI as (sh & El & Hsh). rewrite Eshots in Hsh. apply in_flat_map in Hsh. destruct Hsh as (s & Hs & Hrow).
    apply in_map_iff in Hrow. destruct Hrow as (row & <- & _). cbn [fst] in El. rewrite <- El. split; [apply (Hlab s Hs)|]. exact (B2 _ _ (Hin s Hs)). }
  destruct (filter_summary d None b c raw) as (out & Eo & Fo); auto.
  - rewrite F2, F6, Est. intros ->. cbn in Hsc. destruct Hsc as (s & -> & _). discriminate.
  - rewrite F1, Em. exact Hraw.
  - exists b, c, out. rewrite F1, Em in Fo. auto.
Qed.
End Filter.

(** Labels of zeros only: the base is 1 and no label can be read. *)
Lemma zero_base (ex : dict pystr pystr) : (forall n l, In (n, l) ex -> Forall (fun c => c = "0"%char) l) -> get_base ex = Ok 1.
Proof.
  intros H. destruct (get_base_total ex) as [b E].
  - intros n l HI. eapply Forall_impl; [|exact (H n l HI)]. intros c ->. cbn. lia.
  - destruct (get_base_ok ex b E) as (A & _ & D). rewrite E. f_equal. destruct (Nat.lt_ge_cases b 2) as [|Hb]; [lia|].
    destruct (D Hb) as (n & l & c & HI & Hc & Ec). specialize (H n l HI). rewrite Forall_forall in H. rewrite (H c Hc) in Ec. cbn in Ec. lia.
Qed.
Lemma cut_base1 {V} (exps : list (iexp V)) : forall labels out, cut 1 exps labels = Ok out -> Forall (fun o => o_memory o = []) out.
Proof.
  induction exps as [|e exps IH]; intros labels out H; cbn [cut] in H; [injection H as <-; constructor|]. inv_bind H. inv_bind H. injection H as <-.
  constructor; [|exact (IH _ _ E0)]. cbn. unfold count in E. destruct (firstn (i_shots e) labels); [reflexivity|]. cbn in E. discriminate.
Qed.
