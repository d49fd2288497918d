From Coq Require Import QArith.
From Verif Require Import Base LinAlg QSem PyStr DihedralModel ResultFacts RBSeqModel RBSeqSpec RBSeqProofs RBSeqActProofs RBSeqRunProofs RBSeqTopProofs.
Open Scope nat_scope.

Section Id.
Context {F : Type} {HF : Fld F}.
Variable gmat : pystr -> list Q -> bits -> bits -> F.
Variable grp : group_type -> group.
Variable t : group_type.
Variable pattern : list (list nat).
Variable inter : option (list (elem (grp t))).
Variable valid : nat -> elem (grp t) -> Prop.
Notation G := (grp t).
Hypothesis Hnd : NoDup (concat pattern).
Hypothesis Hlaw : forall pat, In pat pattern -> lawful gmat G (length pat) (valid (length pat)).
Hypothesis Hdraw : forall pat, In pat pattern -> draws_valid G (length pat) (valid (length pat)).
Hypothesis Hinter : forall ies p ie, inter = Some ies -> nth_error ies p = Some ie -> p < length pattern -> valid (length (qubits_of pattern p)) ie.

(** Lists of valid elements, one per pattern. *)
Definition good_els (l : list (elem G)) : Prop :=
  length l = length pattern /\ forall p, p < length pattern -> exists e, nth_error l p = Some e /\ valid (length (qubits_of pattern p)) e.

Lemma mapM_seq_ok {A B} (f : A -> result B) (l : list A) (P : nat -> B -> Prop) : (forall i a, nth_error l i = Some a -> exists b, f a = Ok b /\ P i b) ->
  exists bs, mapM f l = Ok bs /\ length bs = length l /\ forall i b, nth_error bs i = Some b -> P i b.
Proof.
  revert P. induction l as [|a l IH]; intros P H; cbn [mapM].
  - exists []. split; [reflexivity|]. split; [reflexivity|]. intros [|i] b; discriminate.
  - destruct (H 0 a eq_refl) as [b [-> Hb]]. cbn [bind]. destruct (IH (fun i => P (S i))) as [bs [-> [L Hbs]]]; [intros i a' E; apply (H (S i)); exact E|].
    cbn [bind]. eexists. split; [reflexivity|]. split; [cbn; lia|]. intros [|i] b' E; cbn in E; [injection E as <-; exact Hb | apply Hbs, E].
Qed.

Lemma iden_total : exists l0, mapM (fun pat => g_iden G (length pat)) pattern = Ok l0 /\ good_els l0.
Proof.
  clear Hinter Hdraw Hnd inter.
  destruct (mapM_seq_ok (fun pat => g_iden G (length pat)) pattern (fun p e => valid (length (qubits_of pattern p)) e)) as [l0 [E [L H]]].
  - intros p pat Hp. destruct (l_iden _ _ _ _ (Hlaw pat (nth_error_In _ _ Hp))) as [e [Ee [Ve _]]]. exists e. split; [exact Ee|].
    unfold qubits_of. rewrite (nth_error_nth _ _ [] Hp). exact Ve.
  - exists l0. split; [exact E|]. split; [exact L|]. intros p Hp. destruct (nth_error l0 p) as [e|] eqn:Ep; [eauto|]. apply nth_error_None in Ep. lia.
Qed.

Lemma inverses_total l : good_els l -> exists cs, inverses grp t pattern l = Ok cs.
Proof.
  clear Hinter Hdraw Hnd inter. intros [L H]. unfold inverses.
  destruct (mapM_seq_ok (fun p => do e <- index_e l p; do c <- g_inverse G e; replace_q_indices c (nth p pattern [])) (seq 0 (length pattern)) (fun _ _ => True)) as [cs [E _]].
  - intros i p Hp. apply nth_error_In, in_seq in Hp. destruct (H p) as [e [Ee Ve]]; [lia|]. rewrite (index_ok _ _ _ Ee). cbn [bind].
    pose proof (Hlaw _ (pat_in pattern p ltac:(lia))) as Lw. destruct (inv_ok gmat _ _ _ _ Lw Ve) as [-> [Hf _]]. cbn [bind].
    eexists. split; [apply replace_ok; exact Hf | exact I].
  - rewrite E. cbn. eauto.
Qed.

Lemma upd_total it evs l0 : (it = None \/ it = inter) -> Forall (good_ev grp t pattern) evs -> good_els l0 -> exists l1, upd_els grp t it evs l0 l1 /\ good_els l1.
Proof.
  intros Hit Hg [L H].
  destruct (mapM_seq_ok (fun p => do e <- index_e l0 p; foldM (g_compose G) (els grp t it p evs) e) (seq 0 (length pattern))
     (fun p e1 => valid (length (qubits_of pattern p)) e1)) as [l1 [E [L1 H1]]].
  - intros i p Hp. pose proof (nth_error_lt _ _ _ Hp) as Hi. rewrite seq_length in Hi.
    rewrite nth_error_nth' with (d := 0) in Hp by (rewrite seq_length; exact Hi). rewrite seq_nth in Hp by exact Hi. cbn in Hp. injection Hp as <-.
    destruct (H i Hi) as [e0 [E0 V0]]. rewrite (index_ok _ _ _ E0). cbn [bind].
    pose proof (Hlaw _ (pat_in pattern i Hi)) as Lw.
    assert (HV : Forall (valid (length (qubits_of pattern i))) (els grp t it i evs)) by (eapply els_valid; eauto).
    destruct (product_total gmat _ _ _ Lw _ _ V0 HV) as [e1 E1]. exists e1. split; [exact E1|].
    apply (product_action gmat _ _ _ Lw _ _ _ V0 HV E1).
  - apply mapM_inv in E. exists l1. rewrite seq_length in L1.
    assert (Hn : forall p, p < length pattern -> nth_error (seq 0 (length pattern)) p = Some p) by (intros p Hp; rewrite nth_error_nth' with (d := 0) by (rewrite seq_length; exact Hp); rewrite seq_nth by exact Hp; reflexivity).
    split; [split; [lia|] | split; [lia|]].
    + intros p e0 E0. pose proof (nth_error_lt _ _ _ E0) as Hp. rewrite L in Hp. destruct (nth_error l1 p) as [e1|] eqn:E1; [|apply nth_error_None in E1; lia].
      exists e1. split; [reflexivity|]. pose proof (Forall2_nth _ _ _ _ _ _ E (Hn p Hp) E1) as K. cbn beta in K. rewrite (index_ok _ _ _ E0) in K. exact K.
    + intros p Hp. destruct (nth_error l1 p) as [e1|] eqn:E1; [|apply nth_error_None in E1; lia]. exists e1. split; [reflexivity|]. apply (H1 p e1 E1).
Qed.

(** ** The expected bodies act as the identity *)
Definition good_steps (steps : list (list (event G))) : Prop := Forall (good_ev grp t pattern) (concat steps).

Lemma plain_identity it align steps N : (it = None \/ it = inter) -> good_steps steps -> (forall q, In q (concat pattern) -> q < N) ->
  (forall p, p < length pattern -> identity_on gmat N (within (qubits_of pattern p) (gates (seq_body G pattern it align steps ++ recovery G pattern it steps)))) /\
  identity_on gmat N (gates (seq_body G pattern it align steps ++ recovery G pattern it steps)) /\
  fits N (gates (seq_body G pattern it align steps ++ recovery G pattern it steps)).
Proof.
  intros Hit Hg HN. destruct iden_total as [l0 [E0 G0]]. destruct (upd_total it (concat steps) l0 Hit Hg G0) as [l1 [U G1]].
  destruct (inverses_total l1 G1) as [cs E1]. pose proof (recovery_ok grp t pattern 0 false ltac:(discriminate) it steps l0 l1 cs E0 U E1) as ->.
  eapply (body_identity gmat grp t pattern inter valid); eauto.
Qed.

(** Every kind; the purity circuits before their rotations. *)
Definition before_rotations (k : kind) : kind := match k with KPur _ => KStd | _ => k end.
Lemma expected_identity align k steps N : (t = TDihedral \/ (k <> KX /\ k <> KIntX)) -> (t = TDihedral -> h_involution gmat) ->
  good_steps steps -> (forall q, In q (concat pattern) -> q < N) ->
  (forall p, p < length pattern -> identity_on gmat N (within (qubits_of pattern p) (gates (expected_body G pattern inter align (before_rotations k) steps)))) /\
  identity_on gmat N (gates (expected_body G pattern inter align (before_rotations k) steps)).
Proof.
  intros Hk Hh Hg HN. destruct (plain_identity None align steps N (or_introl eq_refl) Hg HN) as (A1 & A2 & _).
  destruct (plain_identity inter align steps N (or_intror eq_refl) Hg HN) as (B1 & B2 & _).
  destruct k as [| | | |d]; cbn [before_rotations expected_body]; auto; (destruct Hk as [Ht|[K1 K2]]; [specialize (Hh Ht) | congruence]); split.
  - intros p Hp. apply sandwich_within; auto.
  - apply sandwich; auto.
  - intros p Hp. apply sandwich_within; auto.
  - apply sandwich; auto.
Qed.
End Id.

(** ** Logs of a run are good *)
Lemma turns_lt pattern mult p : In p (turns pattern mult) -> p < length pattern.
Proof. unfold turns. intros H. apply in_flat_map in H. destruct H as [q [Hq H]]. apply in_seq in Hq. apply repeat_spec in H. lia. Qed.

Lemma logs_good grp a out t mult inter logs s steps r : explained grp a out t mult inter logs -> nth_error logs s = Some steps ->
  good_steps grp t (default_pattern (a_pat _ a)) (firstn r steps).
Proof.
  intros X Hs. unfold good_steps. apply Forall_forall. intros ev Hev. apply in_concat in Hev. destruct Hev as [evs [He Hev]].
  assert (In evs (concat logs)) as Hin.
  { apply in_concat. exists steps. split; [eapply nth_error_In; eauto|]. rewrite <- (firstn_skipn r steps). apply in_app_iff. auto. }
  split.
  - pose proof (ex_turns _ _ _ _ _ _ _ X) as Ht. rewrite Forall_forall in Ht. specialize (Ht evs Hin).
    apply (turns_lt _ mult). rewrite <- Ht. apply in_map, Hev.
  - pose proof (ex_drawn _ _ _ _ _ _ _ X) as Hd. rewrite Forall_forall in Hd. apply Hd. apply in_concat. eauto.
Qed.

(** ** Success *)
Section Total.
Context {F : Type} {HF : Fld F}.
Variable gmat : pystr -> list Q -> bits -> bits -> F.
Variable grp : group_type -> group.
Variable t : group_type.
Variable pattern : list (list nat).
Variable max_dim : nat.
Variable mult : list num.
Variable align : bool.
Variable inter : option (list (elem (grp t))).
Variable lv : list nat.
Variable is_purity : bool.
Variable offset : Z.
Variable valid : nat -> elem (grp t) -> Prop.
Notation G := (grp t).
Notation qlist := (concat pattern).
Hypothesis Hnd : NoDup (concat pattern).
Hypothesis Hlaw : forall pat, In pat pattern -> lawful gmat G (length pat) (valid (length pat)).
Hypothesis Hdraw : forall pat, In pat pattern -> draws_valid G (length pat) (valid (length pat)).
Hypothesis Hinter : forall ies p, inter = Some ies -> p < length pattern -> exists ie, nth_error ies p = Some ie /\ valid (length (qubits_of pattern p)) ie.
Hypothesis Hmult : forall p, p < length pattern -> exists z, nth_error mult p = Some (NInt z).
Hypothesis Hdim : is_purity = true -> forall pat, In pat pattern -> length pat = max_dim.

Notation good := (good_els grp t pattern valid).
Definition good_st (s : st grp t) : Prop := good (s_el _ _ s) /\ good (s_eli _ _ s).

Lemma good_set l p e : good l -> p < length pattern -> valid (length (qubits_of pattern p)) e -> good (set_nth l p e).
Proof.
  clear Hinter Hmult Hdim Hlaw Hdraw Hnd. intros [L H] Hp V. split; [rewrite length_set_nth; lia|]. intros p' Hp'. rewrite nth_error_set_nth by lia.
  destruct (Nat.eqb_spec p' p) as [->|_]; [eauto | apply H, Hp'].
Qed.

Lemma one_elem_total seed p s : p < length pattern -> good_st s -> exists s', one_elem grp t pattern inter seed p s = Ok s' /\ good_st s'.
Proof.
  intros Hp [Ge Gi]. pose proof (Hlaw _ (pat_in pattern p Hp)) as Lw. unfold one_elem. fold (qubits_of pattern p).
  destruct (Hdraw _ (pat_in pattern p Hp) (next_seed seed (s_rs grp t s)) (s_cnt grp t s)) as [new [-> Vn]]. cbn [bind].
  destruct (proj2 Ge p Hp) as [e0 [E0 V0]]. rewrite (index_ok _ _ _ E0). cbn [bind].
  destruct (l_compose _ _ _ _ Lw e0 new V0 Vn) as [e1 [-> [V1 _]]]. cbn [bind].
  destruct (circ_ok gmat _ _ _ _ Lw Vn) as [-> Hf]. cbn [bind]. rewrite replace_ok by exact Hf. cbn [bind].
  destruct inter as [ies|] eqn:Ei; [|eexists; split; [reflexivity|]; split; cbn; [apply good_set; auto | exact Gi]].
  destruct (proj2 Gi p Hp) as [i0 [I0 W0]]. rewrite (index_ok _ _ _ I0). cbn [bind].
  destruct (l_compose _ _ _ _ Lw i0 new W0 Vn) as [i1 [-> [W1 _]]]. cbn [bind].
  destruct (Hinter ies p eq_refl Hp) as [ie [Ie Ve]]. rewrite (index_ok _ _ _ Ie). cbn [bind].
  destruct (l_compose _ _ _ _ Lw i1 ie W1 Ve) as [i2 [-> [W2 _]]]. cbn [bind].
  destruct (circ_ok gmat _ _ _ _ Lw Ve) as [-> Hf']. cbn [bind]. rewrite replace_ok by exact Hf'. cbn [bind].
  eexists; split; [reflexivity|]; split; cbn; apply good_set; auto.
Qed.

Lemma foldM_total' {A B} (f : B -> A -> result B) (P : B -> Prop) l : (forall b a, In a l -> P b -> exists b', f b a = Ok b' /\ P b') ->
  forall b, P b -> exists b', foldM f l b = Ok b' /\ P b'.
Proof.
  induction l as [|a l IH]; intros H b Hb; cbn [foldM]; [eauto|]. destruct (H b a (or_introl eq_refl) Hb) as [b' [-> Hb']]. cbn [bind].
  apply IH; auto. intros b1 a1 Ha1. apply H. right; exact Ha1.
Qed.

Lemma one_step_total seed s : good_st s -> exists s', one_step grp t pattern qlist mult align inter seed s = Ok s' /\ good_st s'.
Proof.
  intros Hs. unfold one_step.
  destruct (foldM_total' (fun s p => one_pattern grp t pattern mult inter seed p s) good_st (seq 0 (length pattern))) with (b := s) as [s' [-> Hs']]; auto.
  - intros s1 p Hp H1. apply in_seq in Hp. unfold one_pattern. destruct (Hmult p) as [z Ez]; [lia|]. rewrite (index_ok _ _ _ Ez). cbn [bind range_len].
    apply foldM_total'; [|exact H1]. intros s2 _ _ H2. apply one_elem_total; [lia | exact H2].
  - cbn [bind]. destruct align; eexists; (split; [reflexivity|]); exact Hs'.
Qed.

Lemma purity_circuit_total body li sd d : is_purity = true -> d < 3 ^ max_dim -> exists c, purity_circuit t pattern qlist max_dim body li sd d = Ok c.
Proof.
  intros Hp Hd. unfold purity_circuit. destruct (purity_loop_total pattern max_dim (Hdim Hp) (S d) d 0) as [[[c n] k] ->]; [lia|rewrite Nat.sub_0_r; auto|].
  cbn. eauto.
Qed.

Lemma emit_total seed li s : good_st s -> exists o, emit grp t pattern qlist max_dim inter is_purity offset seed li s = Ok o.
Proof.
  intros [Ge Gi]. unfold emit. destruct (inverses_total gmat grp t pattern valid Hlaw _ Ge) as [cs ->]. cbn [bind].
  assert (exists csi, match inter with Some _ => inverses grp t pattern (s_eli grp t s) | None => Ok [] end = Ok csi) as [csi ->].
  { destruct inter; [|eauto]. apply (inverses_total gmat grp t pattern valid Hlaw _ Gi). }
  cbn [bind].
  assert (exists pur, (if is_purity then mapM (purity_circuit t pattern qlist max_dim (s_gc grp t s ++ cs) li (Z.of_nat seed + offset)) (seq 0 (3 ^ max_dim)) else Ok []) = Ok pur) as [pur ->].
  { pose proof (purity_circuit_total (s_gc grp t s ++ cs) li (Z.of_nat seed + offset)) as Hpc. clear Hdim.
    destruct is_purity eqn:Ep; [|eauto]. destruct (mapM_seq_ok (purity_circuit t pattern qlist max_dim (s_gc grp t s ++ cs) li (Z.of_nat seed + offset)) (seq 0 (3 ^ max_dim)) (fun _ _ => True)) as [pur [-> _]]; [|eauto].
    intros i d Hd. apply nth_error_In, in_seq in Hd. destruct (Hpc d eq_refl ltac:(lia)) as [c Hc]. eauto. }
  cbn [bind]. eauto.
Qed.

Lemma seed_loop_total seed s0 lv' last n : lv = lv' ++ [last] -> good_st s0 -> n <= last ->
  exists acc, foldM (seed_step grp t pattern qlist max_dim mult align inter lv is_purity offset seed) (seq 0 n) (s0, 0, []) = Ok acc /\ good_st (fst (fst acc)).
Proof.
  intros Hlv H0. induction n as [|n IH]; intros Hn; [cbn; eauto|]. destruct IH as [acc [E Hacc]]; [lia|].
  rewrite seq_S, foldM_app', E. cbn [bind Nat.add foldM]. destruct acc as [[s li] os]. cbn [fst] in Hacc.
  pose proof (seed_loop_inv grp t pattern qlist eq_refl max_dim mult align inter lv is_purity offset seed _ _ _ E) as (steps & _ & Los & Ho). cbn [fst snd] in *.
  unfold seed_step at 1. destruct (one_step_total seed s Hacc) as [s' [-> Hs']]. cbn [bind].
  assert (li < length lv) as Hli.
  { destruct (Nat.lt_ge_cases li (length lv)) as [|Hge]; [assumption|exfalso].
    assert (li <> 0) by (rewrite Hlv, app_length in Hge; cbn in Hge; lia).
    destruct (nth_error os (length lv - 1)) as [o|] eqn:Eo.
    - destruct (Ho _ _ Eo) as (r & _ & Er & Hr & _). rewrite Hlv, nth_error_app2 in Er by (rewrite app_length; cbn; lia).
      rewrite app_length in Er. cbn in Er. replace (length lv' + 1 - 1 - length lv') with 0 in Er by lia. cbn in Er. injection Er as <-. lia.
    - apply nth_error_None in Eo. rewrite Hlv, app_length in *. cbn in *. lia. }
  destruct (nth_error lv li) as [target|] eqn:Et; [|apply nth_error_None in Et; lia]. rewrite (index_ok _ _ _ Et). cbn [bind].
  destruct (n + 1 =? target); [|cbn; eauto]. destruct (emit_total seed li s' Hs') as [o ->]. cbn. eauto.
Qed.

Lemma one_seed_total rs cnt seed : lv <> [] -> exists r, one_seed grp t pattern qlist max_dim mult align inter lv is_purity offset rs cnt seed = Ok r.
Proof.
  intros Hl. unfold one_seed. destruct (iden_total gmat grp t pattern valid Hlaw) as [l0 [-> G0]]. cbn [bind].
  destruct (exists_last Hl) as [lv' [last Hlv]]. assert (rev lv = last :: rev lv') as Hrev by (rewrite Hlv, rev_app_distr; reflexivity).
  rewrite Hrev. cbn [bind]. 
  destruct (seed_loop_total seed {| s_rs := rs; s_cnt := cnt; s_el := l0; s_eli := l0; s_gc := []; s_ic := [] |} lv' last last Hlv (conj G0 G0) (le_n _)) as [[[s li] os] [-> _]].
  cbn. eauto.
Qed.

Lemma all_seeds_total rs n : lv <> [] -> exists os, all_seeds grp t pattern qlist max_dim mult align inter lv is_purity offset rs n = Ok os.
Proof.
  intros Hl. unfold all_seeds.
  destruct (foldM_total' (fun acc seed => let '(rs, cnt, os) := acc in
           do o <- one_seed grp t pattern qlist max_dim mult align inter lv is_purity offset rs cnt seed;
           let '(rs', cnt', outs) := o in Ok (rs', cnt', os ++ [outs])) (fun _ => True) (seq 0 n)) with (b := (rs, 0, @nil (list outs))) as [r [-> _]]; auto.
  - intros [[rs1 cnt1] os1] seed _ _. destruct (one_seed_total rs1 cnt1 seed Hl) as [[[rs' cnt'] o] ->]. cbn. eauto.
  - cbn. eauto.
Qed.
End Total.
