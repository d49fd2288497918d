(** The data of a tomography fitter (C50) and tomography from circuits to fit (C62). *)
From Coq Require Import QArith Reals Lra.
From Coquelicot Require Import Coquelicot.
From Verif Require Import LinAlg Base ResultFacts CountsModel CountsProofs MeasCalModel QSem DihedralModel RBSeqModel RBSeqSpec CtmpSpec StdGates AccSpec AccProbProofs EntSpec.
From Verif Require Import TomoModel TomoSpec TomoFitModel TomoFitSpec TomoPoolSpec TomoCircProofs TomoLayerProofs TomoTensorProofs TomoBasisProofs TomoBornProofs TomoDataProofs TomoCompleteProofs TomoFitProofs.
Local Open Scope list_scope.
Local Open Scope nat_scope.

Lemma get_counts_has r name c : has_counts r name c -> get_counts r name = Ok c.
Proof.
  intros (r1 & e & r2 & -> & Hn & <- & <-). unfold get_counts. induction Hn as [|x r1 Hx _ IH]; cbn [app find].
  - rewrite eqb_refl. reflexivity.
  - destruct (eqb_spec (e_name x) (e_name e)) as [E|_]; [congruence|]. exact IH.
Qed.
Lemma get_counts_none r name : Forall (fun e => e_name e <> name) r -> get_counts r name = Err QiskitError.
Proof. intros H. unfold get_counts. induction H as [|x r Hx _ IH]; cbn [find]; [reflexivity|]. destruct (eqb_spec (e_name x) name) as [E|_]; [congruence|]. exact IH. Qed.
Lemma find_counts_last rs a c : last_counts rs (arg_name a) c -> find_counts rs a = Ok c.
Proof.
  intros (rs1 & r & rs2 & -> & Hr & Hn). unfold find_counts. rewrite fold_left_app. cbn [fold_left]. rewrite (get_counts_has _ _ _ Hr).
  assert (G : fold_left (fun acc r => match get_counts r (arg_name a) with Ok c => Some c | Err _ => acc end) rs2 (Some c) = Some c); [|rewrite G; reflexivity].
  induction Hn as [|r' rs2 Hr' _ IH]; [reflexivity|]. cbn [fold_left]. rewrite (get_counts_none _ _ Hr'). exact IH.
Qed.
Lemma find_counts_inv rs a c : find_counts rs a = Ok c -> last_counts rs (arg_name a) c.
Proof.
  unfold find_counts. intros H.
  assert (G : forall rs acc, fold_left (fun acc r => match get_counts r (arg_name a) with Ok c => Some c | Err _ => acc end) rs acc = Some c ->
    last_counts rs (arg_name a) c \/ acc = Some c /\ Forall (fun r => Forall (fun e => e_name e <> arg_name a) r) rs).
  { clear H. induction rs0 as [|r rs0 IH]; intros acc H; [right; split; [exact H|constructor]|]. cbn [fold_left] in H. destruct (IH _ H) as [(r1 & r' & r2 & -> & Hr & Hn)|[E Hn]].
    - left. exists (r :: r1), r', r2. auto.
    - destruct (get_counts r (arg_name a)) as [c'|] eqn:Eg.
      + injection E as ->. left. exists [], r, rs0. split; [reflexivity|]. split; [|assumption]. unfold get_counts in Eg.
        clear -Eg. induction r as [|e r IH]; [discriminate|]. cbn [find] in Eg. destruct (eqb_spec (e_name e) (arg_name a)) as [E|N]; [injection Eg as <-; exists [], e, r; auto|].
        destruct (IH Eg) as (r1 & e' & r2 & -> & H1 & H2 & H3). exists (e :: r1), e', r2. split; [reflexivity|]. auto.
      + right. split; [assumption|]. constructor; [|assumption]. unfold get_counts in Eg. clear -Eg.
        induction r as [|e r IH]; [constructor|]. cbn [find] in Eg. destruct (eqb_spec (e_name e) (arg_name a)) as [E|N]; [discriminate|]. constructor; auto. }
  destruct (fold_left _ rs None) as [c'|] eqn:E; [|destruct a; discriminate]. injection H as ->. destruct (G rs None E) as [|[? _]]; [assumption|discriminate].
Qed.

(** * Adding counts *)
Lemma count_dget0 c k : count_of c k = dget0 c k. Proof. reflexivity. Qed.
Lemma count_combine c1 c2 k : NoDup (dkeys c2) -> count_of (combine_counts c1 c2) k = (count_of c1 k + count_of c2 k)%Z.
Proof. intros H. rewrite !count_dget0, combine_counts_get0, <- (shots_of_dget0 c2 k H). reflexivity. Qed.

Lemma last_wf rs name c : wf_results rs -> last_counts rs name c -> NoDup (dkeys c).
Proof.
  intros H (rs1 & r & rs2 & -> & (r1 & e & r2 & -> & _ & _ & <-) & _). apply Forall_app in H. destruct H as [_ H]. inversion H as [|? ? H1 _]; subst. apply Forall_app in H1. destruct H1 as [_ H1]. inversion H1; subst. assumption.
Qed.
Lemma foldM_cons' {A B} (f : B -> A -> result B) a l b : foldM f (a :: l) b = do b' <- f b a; foldM f l b'. Proof. reflexivity. Qed.
Lemma add_circuits_ok rs cs l : wf_results rs -> call_counts rs cs l -> forall d, exists d', foldM (add_circuit rs false) cs d = Ok d' /\
  (forall t k, shots_at d' t k = (shots_at d t k + shots_in l t k)%Z) /\
  (forall t, In t (dkeys d') <-> In t (dkeys d) \/ In t (map fst l)) /\ (NoDup (dkeys d) -> NoDup (dkeys d')).
Proof.
  intros Hwf H. induction H as [|a [t0 c0] cs l [Ht Hc] _ IH]; intros d.
  - exists d. split; [reflexivity|]. split; [intros; unfold shots_in; cbn; lia|]. split; [intros; cbn; tauto|auto].
  - cbn [fst snd] in *. rewrite foldM_cons'. unfold add_circuit at 1. rewrite (find_counts_last _ _ _ Hc). cbn [bind]. rewrite Ht. cbn [bind].
    pose proof (last_wf _ _ _ Hwf Hc) as Hnd.
    set (d1 := match dget d t0 with Some old => dset d t0 (combine_counts old c0) | None => dset d t0 c0 end).
    destruct (IH d1) as (d' & E & Hs & Hk & Hn). exists d'. split; [exact E|].
    assert (H1 : forall t k, shots_at d1 t k = (shots_at d t k + (if eqb t0 t then count_of c0 k else 0))%Z).
    { intros t k. unfold shots_at, d1. destruct (dget d t0) as [old|] eqn:Eo; rewrite dget_dset.
      - destruct (eqb_spec t t0) as [->|N]; [rewrite eqb_refl, Eo; now apply count_combine|]. destruct (eqb_spec t0 t) as [E'|]; [congruence|]. destruct (dget d t); lia.
      - destruct (eqb_spec t t0) as [->|N]; [rewrite eqb_refl, Eo; lia|]. destruct (eqb_spec t0 t) as [E'|]; [congruence|]. destruct (dget d t); lia. }
    split; [intros t k; rewrite Hs, H1; unfold shots_in; cbn [map fold_right fst snd]; lia|].
    split.
    + intros t. rewrite Hk. cbn [map fst In]. unfold d1. destruct (dget d t0) as [old|] eqn:Eo; rewrite In_dkeys_dset ; intuition.
    + intros Hd. apply Hn. unfold d1. destruct (dget d t0); apply NoDup_dset; assumption.
Qed.

(** Counts pooled from exact counts are exact. *)
Lemma pooled_exact gmat N n body (l : list counts) c : l <> [] -> Forall (exact_counts gmat N n body) l ->
  (forall k, count_of c k = fold_right Z.add 0%Z (map (fun c' => count_of c' k) l)) -> exact_counts gmat N n body c.
Proof.
  intros Hne H Hc.
  assert (Hs : shots_of n c = fold_right Z.add 0%Z (map (shots_of n) l)).
  { unfold shots_of. rewrite (map_ext _ _ (fun z => Hc (key_of z))). clear. induction (cube n) as [|z zs IH]; cbn [map fold_right].
    - induction l; cbn; auto.
    - rewrite IH. clear. induction l as [|c' l IH]; cbn [map fold_right]; lia. }
  assert (Hpos : (0 < shots_of n c)%Z).
  { rewrite Hs. destruct H as [|c0 l H0 Hr]; [congruence|]. cbn [map fold_right]. assert (0 <= fold_right Z.add 0 (map (shots_of n) l))%Z by (clear -Hr; induction Hr as [|x l [Hx _] _ IH]; cbn [map fold_right]; lia). destruct H0 as [H0 _]. lia. }
  split; [assumption|]. intros z Hz. split.
  - rewrite Hc. clear -H Hz. induction H as [|x l [_ Hx] _ IH]; cbn [map fold_right]; [lia|]. destruct (Hx z Hz) as [? _]. lia.
  - set (p := prob gmat (HK:=Fld_R) sqmod N n body (key_of z)).
    assert (E : (IZR (count_of c (key_of z)) = p * IZR (shots_of n c))%R).
    { rewrite Hc, Hs. clear -H Hz. induction H as [|x l [Hp Hx] _ IH]; cbn [map fold_right]; [lra|]. rewrite !plus_IZR, IH. destruct (Hx z Hz) as [_ E]. fold p in E. rewrite <- E. field.
      apply Rgt_not_eq. apply (IZR_lt 0). exact Hp. }
    rewrite E. field. apply Rgt_not_eq. apply (IZR_lt 0). exact Hpos.
Qed.

(** The data of a new fitter for circuits with one register. *)
Lemma dget_In {V} (d : dict pyval V) t c : NoDup (dkeys d) -> In (t, c) d -> dget d t = Some c.
Proof. intros. apply dget_In_NoDup; assumption. Qed.
Lemma new_data gmat N n (rs : list qresult) (cs : list tcirc) (body : pyval -> list cinstr) (meas prep : basis_arg) m p :
  wf_results rs -> cs <> [] -> set_measure_basis meas = Ok m -> set_preparation_basis prep = Ok p ->
  Forall (fun k => length (t_cregs k) = 1) cs ->
  (forall k, In k cs -> exists t c, literal_eval (t_name k) = Ok t /\ last_counts rs (t_name k) c /\ exact_counts gmat N n (body t) c) ->
  exists f, new_fitter rs (map CCirc cs) meas prep = Ok f /\ ft_meas f = m /\ ft_prep f = p /\
    (forall t c, In (t, c) (ft_data f) -> exact_counts gmat N n (body t) c /\ exists k, In k cs /\ literal_eval (t_name k) = Ok t) /\
    (forall k t, In k cs -> literal_eval (t_name k) = Ok t -> exists c, In (t, c) (ft_data f)).
Proof.
  intros Hwf Hne Em Ep Hreg Hall.
  assert (Hl : exists l, call_counts rs (map CCirc cs) l /\ Forall2 (fun k tc => literal_eval (t_name k) = Ok (fst tc) /\ exact_counts gmat N n (body (fst tc)) (snd tc)) cs l).
  { clear Hne Hreg. induction cs as [|k cs IH]; [exists []; split; constructor|]. destruct IH as (l & H1 & H2); [intros; apply Hall; now right|].
    destruct (Hall k (or_introl eq_refl)) as (t & c & Ht & Hc & He). exists ((t, c) :: l). split; constructor; auto. }
  destruct Hl as (l & Hl & Hl'). destruct (add_circuits_ok rs _ l Hwf Hl []) as (d' & E & Hs & Hk & Hn). specialize (Hn (NoDup_nil _)).
  exists {| ft_meas := m; ft_prep := p; ft_data := d' |}. split.
  { unfold new_fitter. rewrite Em, Ep. cbn [bind]. unfold add_data. destruct cs as [|k0 cs0]; [congruence|]. cbn [map]. inversion Hreg as [|? ? Hr0 _]; subst. rewrite Hr0. cbn [Nat.eqb negb ft_data ft_meas ft_prep].
    change (CCirc k0 :: map CCirc cs0) with (map CCirc (k0 :: cs0)). rewrite E. reflexivity. }
  cbn [ft_meas ft_prep ft_data]. split; [reflexivity|]. split; [reflexivity|]. split.
  - intros t c Hin. assert (Hd : dget d' t = Some c) by (apply dget_In; assumption).
    assert (Hin' : In t (map fst l)).
    { assert (K : In t (dkeys d')) by (apply (in_map fst) in Hin; exact Hin). apply Hk in K. destruct K as [[]|K]. exact K. }
    split.
    + apply (pooled_exact gmat N n (body t) (map snd (filter (fun tc => eqb (fst tc) t) l))).
      * apply in_map_iff in Hin'. destruct Hin' as ([t' c'] & E' & Hi). cbn in E'. subst t'. intros Z. apply map_eq_nil in Z.
        assert (K : In (t, c') (filter (fun tc => eqb (fst tc) t) l)) by (apply filter_In; split; [assumption|cbn; apply eqb_refl]). rewrite Z in K. destruct K.
      * apply Forall_forall. intros c' Hc'. apply in_map_iff in Hc'. destruct Hc' as ([t' c''] & <- & Hf). apply filter_In in Hf. destruct Hf as [Hf Ef]. cbn [fst snd] in *. destruct (eqb_spec t' t) as [->|]; [|discriminate].
        destruct (Forall2_in_r _ _ _ _ Hl' Hf) as (k & _ & _ & He). exact He.
      * intros k. specialize (Hs t k). unfold shots_at in Hs. rewrite Hd in Hs. cbn [dget] in Hs. rewrite Hs. unfold shots_in. clear. cbn [Z.add]. induction l as [|[t' c'] l IH]; [reflexivity|]. cbn [map filter fold_right fst snd]. destruct (eqb t' t); cbn [map fold_right snd]; lia.
    + apply in_map_iff in Hin'. destruct Hin' as (tc & <- & Hi). destruct (Forall2_in_r _ _ _ _ Hl' Hi) as (k & Hk' & Et & _). exists k. auto.
  - intros k t Hin Ht. destruct (Forall2_in_l _ _ _ _ Hl' Hin) as ([t' c'] & Hi & Et & _). cbn [fst] in Et. assert (t' = t) as -> by congruence.
    assert (K : In t (dkeys d')) by (apply Hk; right; apply (in_map fst) in Hi; exact Hi). apply in_map_iff in K. destruct K as ([t'' c''] & E' & Hi'). cbn in E'. subst. exists c''. exact Hi'.
Qed.

(** * From circuits to fits *)
Definition unstr (v : pyval) : pystr := match v with VStr s => s | _ => [] end.
Definition untup (v : pyval) : list pyval := match v with VTup l => l | _ => [] end.
Lemma unstr_map m : map unstr (map VStr m) = m. Proof. rewrite map_map. cbn. apply map_id. Qed.

Section EndToEnd.
Variable gmat : pystr -> list Q -> bits -> bits -> C.
Variable lstsq : list (list C) -> list C -> list C.
Variable eigh : cmat -> (nat -> R) * (nat -> nat -> C).
Variable cvx_fit : list R -> list (list C) -> option (list R) -> bool -> option R -> bool -> result cmat.
Variables has_sdp_solver has_sdp_solver_not_scs : bool.
Variables (c : tcirc) (qs : list nat) (mb : basis_arg) (b : tbasis) (d : meas_data) (ls : list pystr).
Hypothesis Hqs : some_qubits c qs.
Hypothesis Hcr : t_cregs c = [].
Hypothesis Hc : only_gates (t_body c).
Hypothesis Hmb : default_basis mb = Ok (Some b).
Hypothesis Hb : tb_meas b = Some d.
Hypothesis Hd : sound_meas gmat d.
Hypothesis Hls : NoDup ls.
Hypothesis Hli : incl ls (md_labels d).
Hypothesis Hlp : Forall plain ls.
Hypothesis HS : site_complete (list_prod ls [false; true]) (fun lo => at2 (md_matrix d (fst lo) (snd lo))).
Hypothesis Hlne : ls <> [].
Notation n := (length qs).
Notation N := (t_width c).

Lemma ls_choice : exists m, choice n ls m.
Proof. destruct ls as [|l ls']; [congruence|]. exists (repeat l n). split; [apply repeat_length|]. apply Forall_forall. intros x Hx. apply repeat_spec in Hx. subst. now left. Qed.
Lemma choice_incl k l l' m : incl l l' -> choice k l m -> choice k l' m.
Proof. intros Hi [H1 H2]. split; [assumption|]. eapply Forall_impl; [|exact H2]. auto. Qed.

(** The data of the fitter that is built. *)
Lemma state_new_data rs cs :
  state_tomography_circuits c qs (LTuple ls) mb = Ok cs -> wf_results rs ->
  (forall k, In k cs -> exists cts, last_counts rs (t_name k) cts /\ exact_counts gmat N n (t_body k) cts) ->
  exists f, new_fitter rs (map CCirc cs) mb BNone = Ok f /\ ft_meas f = Some b /\
    exact_state_data gmat N (t_body c) qs d (ft_data f) /\ covers_states n ls (ft_data f).
Proof.
  intros Ecs Hwf Hdata.
  destruct (state_circuits_lemma c qs d mb b ls Hqs Hmb Hb Hls Hli Hlp) as (cs' & E' & _ & _ & Hto & Hof). assert (cs' = cs) as -> by congruence. clear E'.
  set (body := fun t => t_body c ++ CBarrier (seq 0 N) :: meas_layer d qs (map unstr (untup t))).
  destruct (new_data gmat N n rs cs body mb BNone (Some b) None Hwf) as (f & Ef & Fm & Fp & Hex & Hcov).
  - intros ->. destruct ls_choice as (m & Hm). destruct (Hto m Hm) as (k & [] & _).
  - unfold set_measure_basis. rewrite Hmb. cbn [bind]. rewrite Hb. reflexivity.
  - reflexivity.
  - apply Forall_forall. intros k Hk. destruct (Hof k Hk) as (t & _ & _ & _ & Hr & _). rewrite Hr, Hcr. reflexivity.
  - intros k Hk. destruct (Hof k Hk) as (t & Ht & Et & _ & _ & Eb). destruct (Hdata k Hk) as (cts & H1 & H2). exists (VTup (map VStr t)), cts. split; [assumption|]. split; [assumption|].
    unfold body. cbn [untup]. rewrite unstr_map. rewrite Eb, moved_only_gates in H2 by assumption. exact H2.
  - exists f. split; [assumption|]. split; [assumption|]. split.
    + split.
      * destruct ls_choice as (m & Hm). destruct (Hto m Hm) as (k & Hk & Ek & _). destruct (Hcov k _ Hk Ek) as (cts & Hin). intros Z. rewrite Z in Hin. destruct Hin.
      * apply Forall_forall. intros [t cts] Hin. destruct (Hex t cts Hin) as (He & k & Hk & Ek). destruct (Hof k Hk) as (m & Hm & Em & _). assert (t = VTup (map VStr m)) as -> by congruence.
        exists m. cbn [fst snd]. split; [reflexivity|]. split; [eapply choice_incl; eassumption|]. unfold body in He. cbn [untup] in He. rewrite unstr_map in He. exact He.
    + intros m Hm. destruct (Hto m Hm) as (k & Hk & Ek & _). exact (Hcov k _ Hk Ek).
Qed.
Lemma state_end_to_end rs weighted beta method cs :
  state_tomography_circuits c qs (LTuple ls) mb = Ok cs -> wf_results rs -> (0 <= beta)%R ->
  method = MLstsq \/ method = MAuto /\ has_sdp_solver_not_scs = false ->
  (forall k, In k cs -> exists cts, last_counts rs (t_name k) cts /\ exact_counts gmat N n (t_body k) cts) ->
  norm2 N (final gmat N (t_body c)) <> 0%R ->
  exists f, new_fitter rs (map CCirc cs) mb BNone = Ok f /\
  ((forall data rows w, fitter_data f weighted beta = Ok (data, rows, w) ->
     least_squares (2 ^ n * 2 ^ n) (fst (fit_system rows data w)) (snd (fit_system rows data w)) (lstsq (fst (fit_system rows data w)) (snd (fit_system rows data w)))) ->
   (forall m, m_rows m = 2 ^ n -> m_cols m = 2 ^ n -> same_entries (2 ^ n) (m_at m) (state_of gmat N (t_body c) qs) -> eigen_of (2 ^ n) (m_at m) (fst (eigh m)) (snd (eigh m))) ->
   exists rho, state_fit lstsq eigh cvx_fit has_sdp_solver_not_scs f method weighted beta = Ok rho /\ m_rows rho = 2 ^ n /\ m_cols rho = 2 ^ n /\
    same_entries (2 ^ n) (m_at rho) (state_of gmat N (t_body c) qs)).
Proof.
  intros Ecs Hwf Hbeta Hmeth Hdata Hnz. destruct (state_new_data rs cs Ecs Hwf Hdata) as (f & Ef & Fm & Hd1 & Hd2).
  exists f. split; [assumption|]. intros Hlsq Heig. destruct Hqs as (Q1 & Q2 & Q3).
  apply (state_fit_exact gmat lstsq eigh cvx_fit has_sdp_solver_not_scs N (t_body c) qs b d f Q1 Q2 Q3 Hc Fm Hb Hd weighted beta Hbeta ls HS method Hmeth Hd1); auto.
Qed.

Variables (pqs : list nat) (pb : basis_arg) (p : tbasis) (pd : prep_data) (ps : list pystr).
Hypothesis Hpqs : some_qubits c pqs.
Hypothesis Hlen : length pqs = n.
Hypothesis Hpb : default_basis pb = Ok (Some p).
Hypothesis Hp : tb_prep p = Some pd.
Hypothesis Hpd : sound_prep gmat pd.
Hypothesis Hps : NoDup ps.
Hypothesis Hpi : incl ps (pd_labels pd).
Hypothesis Hpp : Forall plain ps.
Hypothesis HP : site_complete ps (fun l => at2 (pd_matrix pd l)).
Hypothesis Hpne : ps <> [].
Notation D := (2 ^ n * 2 ^ n).
Lemma ps_choice : exists m, choice n ps m.
Proof. destruct ps as [|l ls']; [congruence|]. exists (repeat l n). split; [apply repeat_length|]. apply Forall_forall. intros x Hx. apply repeat_spec in Hx. subst. now left. Qed.

Lemma process_new_data rs cs :
  process_tomography_circuits c qs (Some pqs) (LTuple ls) mb (LTuple ps) pb = Ok cs -> wf_results rs ->
  (forall k, In k cs -> exists cts, last_counts rs (t_name k) cts /\ exact_counts gmat N n (t_body k) cts) ->
  exists f, new_fitter rs (map CCirc cs) mb pb = Ok f /\ ft_meas f = Some b /\ ft_prep f = Some p /\
    exact_process_data gmat N (t_body c) pqs qs pd d (ft_data f) /\ covers_processes n ps ls (ft_data f).
Proof.
  intros Ecs Hwf Hdata.
  destruct (process_circuits_lemma c qs pqs d pd mb pb b p ls ps Hqs Hpqs Hlen Hmb Hb Hpb Hp Hls Hli Hlp Hps Hpi Hpp) as (cs' & E' & _ & _ & Hto & Hof). assert (cs' = cs) as -> by congruence. clear E'.
  set (body := fun t => prep_layer pd pqs (map unstr (untup (nth 0 (untup t) VNone))) ++ [CBarrier (seq 0 N)] ++ t_body c ++ CBarrier (seq 0 N) :: meas_layer d qs (map unstr (untup (nth 1 (untup t) VNone)))).
  destruct ls_choice as (m0 & Hm0). destruct ps_choice as (p0 & Hp0).
  destruct (new_data gmat N n rs cs body mb pb (Some b) (Some p) Hwf) as (f & Ef & Fm & Fp & Hex & Hcov).
  - intros ->. destruct (Hto p0 m0 Hp0 Hm0) as (k & [] & _).
  - unfold set_measure_basis. rewrite Hmb. cbn [bind]. rewrite Hb. reflexivity.
  - unfold set_preparation_basis. rewrite Hpb. cbn [bind]. rewrite Hp. reflexivity.
  - apply Forall_forall. intros k Hk. destruct (Hof k Hk) as (pl & t & _ & _ & _ & _ & Hr & _). rewrite Hr, Hcr. reflexivity.
  - intros k Hk. destruct (Hof k Hk) as (pl & t & Hpl & Ht & Et & _ & _ & Eb). destruct (Hdata k Hk) as (cts & H1 & H2). exists (VTup [VTup (map VStr pl); VTup (map VStr t)]), cts. split; [assumption|]. split; [assumption|].
    unfold body. cbn [untup nth]. rewrite !unstr_map. rewrite Eb, moved_only_gates in H2 by assumption. exact H2.
  - exists f. split; [assumption|]. split; [assumption|]. split; [assumption|]. split.
    + split.
      * destruct (Hto p0 m0 Hp0 Hm0) as (k & Hk & Ek & _). destruct (Hcov k _ Hk Ek) as (cts & Hin). intros Z. rewrite Z in Hin. destruct Hin.
      * apply Forall_forall. intros [t cts] Hin. destruct (Hex t cts Hin) as (He & k & Hk & Ek). destruct (Hof k Hk) as (pl & m & Hpl & Hm & Em & _). assert (t = VTup [VTup (map VStr pl); VTup (map VStr m)]) as -> by congruence.
        exists pl, m. cbn [fst snd]. split; [reflexivity|]. split; [eapply choice_incl; [|eassumption]; assumption|]. split; [eapply choice_incl; [|eassumption]; assumption|]. unfold body in He. cbn [untup nth] in He. rewrite !unstr_map in He. exact He.
    + intros pl m Hpl Hm. destruct (Hto pl m Hpl Hm) as (k & Hk & Ek & _). exact (Hcov k _ Hk Ek).
Qed.
Lemma process_end_to_end rs weighted beta method cs :
  process_tomography_circuits c qs (Some pqs) (LTuple ls) mb (LTuple ps) pb = Ok cs -> wf_results rs -> (0 <= beta)%R ->
  method = MLstsq \/ method = MAuto /\ has_sdp_solver = false ->
  (forall k, In k cs -> exists cts, last_counts rs (t_name k) cts /\ exact_counts gmat N n (t_body k) cts) ->
  isometric gmat N (t_body c) ->
  exists f, new_fitter rs (map CCirc cs) mb pb = Ok f /\
  ((forall data rows w, fitter_data f weighted beta = Ok (data, rows, w) ->
     least_squares (D * D) (fst (fit_system rows data w)) (snd (fit_system rows data w)) (lstsq (fst (fit_system rows data w)) (snd (fit_system rows data w)))) ->
   (forall m, m_rows m = D -> m_cols m = D -> same_entries D (m_at m) (choi_of gmat N (t_body c) pqs qs) -> eigen_of D (m_at m) (fst (eigh m)) (snd (eigh m))) ->
   exists choi, process_fit lstsq eigh cvx_fit has_sdp_solver f method weighted beta = Ok choi /\ m_rows choi = D /\ m_cols choi = D /\
    same_entries D (m_at choi) (choi_of gmat N (t_body c) pqs qs)).
Proof.
  intros Ecs Hwf Hbeta Hmeth Hdata Hiso. destruct (process_new_data rs cs Ecs Hwf Hdata) as (f & Ef & Fm & Fp & Hd1 & Hd2).
  exists f. split; [assumption|]. intros Hlsq Heig. destruct Hqs as (Q1 & Q2 & Q3). destruct Hpqs as (P1 & P2 & P3).
  apply (process_fit_exact gmat lstsq eigh cvx_fit has_sdp_solver N (t_body c) qs b d f Q1 Q2 Q3 Hc Fm Hb Hd weighted beta Hbeta ls HS pqs p pd P2 P3 Hlen Fp Hp Hpd ps HP Hpi method Hmeth Hd1); auto.
Qed.
End EndToEnd.
