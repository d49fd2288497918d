From Coq Require Import QArith.
From Verif Require Import Base LinAlg QSem PyStr DihedralModel ResultFacts RBSeqModel RBSeqSpec RBSeqProofs.
Open Scope nat_scope.

(** ** Patterns of distinct qubits *)
Lemma nodup_app_iff {A} (l m : list A) : NoDup (l ++ m) <-> NoDup l /\ NoDup m /\ forall x, In x l -> ~ In x m.
Proof.
  induction l as [|a l IH]; cbn; [split; [intros H; repeat split; auto; constructor | tauto]|].
  rewrite !NoDup_cons_iff, IH, in_app_iff. split.
  - intros (A1 & B & C & D). repeat split; auto. intros x [<-|H] K; [tauto | apply (D x); auto].
  - intros ((A1 & B) & C & D). split; [intros [H|H]; [tauto | apply (D a); auto]|]. repeat split; auto.
Qed.
Lemma nodup_concat_in (l : list (list nat)) a : NoDup (concat l) -> In a l -> NoDup a.
Proof. induction l as [|b l IH]; cbn; intros H []; apply nodup_app_iff in H; destruct H as (H1 & H2 & _); [subst; exact H1 | auto]. Qed.
Lemma nodup_concat_disjoint (l : list (list nat)) i j a b q : NoDup (concat l) -> i <> j -> nth_error l i = Some a -> nth_error l j = Some b ->
  In q a -> ~ In q b.
Proof.
  revert i j; induction l as [|c l IH]; intros [|i] [|j] H Hij Ei Ej Ha Hb; cbn in *; try discriminate; try lia;
    apply nodup_app_iff in H; destruct H as (H1 & H2 & H3).
  - injection Ei as <-. apply (H3 q Ha). apply in_concat. exists b. split; [eapply nth_error_In; eauto | exact Hb].
  - injection Ej as <-. apply (H3 q Hb). apply in_concat. exists a. split; [eapply nth_error_In; eauto | exact Ha].
  - apply (IH i j H2 (ltac:(lia) : i <> j) Ei Ej Ha Hb).
Qed.

Lemma within_app pat a b : within pat (a ++ b) = within pat a ++ within pat b.
Proof. apply filter_app. Qed.
Lemma within_spec pat c g : In g (within pat c) <-> In g c /\ forall q, In q (gqubits g) -> In q pat.
Proof.
  unfold within. rewrite filter_In, forallb_forall. split; intros [H K]; split; auto; intros q Hq; [apply mem_In, K, Hq | apply mem_In, K, Hq].
Qed.
Lemma on_qubits pat c g : fits (length pat) c -> In g (map (on pat) c) -> gqubits g <> [] /\ forall q, In q (gqubits g) -> In q pat.
Proof.
  intros H Hg. apply in_map_iff in Hg. destruct Hg as [g' [<- Hg']]. unfold fits in H. rewrite Forall_forall in H.
  destruct (H g' Hg') as (H1 & H2 & H3). cbn [on gqubits]. split.
  - destruct (gqubits g'); [congruence | discriminate].
  - intros q Hq. eapply in_place; eauto.
Qed.
Lemma filter_all {A} (P : A -> bool) l : (forall a, In a l -> P a = true) -> filter P l = l.
Proof. induction l as [|a l IH]; cbn; intros H; auto. rewrite (H a) by auto. f_equal. apply IH. auto. Qed.
Lemma filter_none {A} (P : A -> bool) l : (forall a, In a l -> P a = false) -> filter P l = [].
Proof. induction l as [|a l IH]; cbn; intros H; auto. rewrite (H a) by auto. apply IH. auto. Qed.

Lemma within_self pat c : fits (length pat) c -> within pat (map (on pat) c) = map (on pat) c.
Proof.
  intros H. apply filter_all. intros g Hg. apply forallb_forall. intros q Hq. apply mem_In.
  destruct (on_qubits pat c g H Hg) as [_ K]. apply K, Hq.
Qed.
Lemma within_other pat pat' c : fits (length pat') c -> (forall q, In q pat' -> ~ In q pat) -> within pat (map (on pat') c) = [].
Proof.
  intros H Hd. apply filter_none. intros g Hg. destruct (on_qubits pat' c g H Hg) as [Hne K].
  destruct (gqubits g) as [|q qs] eqn:E; [congruence|]. cbn [forallb].
  assert (mem q pat = false) as ->; [apply mem_not_In, Hd, K; left; reflexivity | reflexivity].
Qed.

Lemma fits_app n a b : fits n (a ++ b) <-> fits n a /\ fits n b.
Proof. apply Forall_app. Qed.
Lemma fits_flat_map {A} n (f : A -> list ginstr) l : (forall a, In a l -> fits n (f a)) -> fits n (flat_map f l).
Proof. induction l as [|a l IH]; cbn; intros H; [constructor|]. apply fits_app. split; auto. Qed.

Section Act.
Context {F : Type} {HF : Fld F}.
Variable gmat : pystr -> list Q -> bits -> bits -> F.
Notation op_of := (op_of gmat).
Notation same_action := (same_action gmat).
Notation identity_on := (identity_on gmat).

Lemma same_refl n c : same_action n c c. Proof. apply equiv_refl. Qed.
Lemma same_sym n c d : same_action n c d -> same_action n d c. Proof. apply equiv_sym. Qed.
Lemma same_trans n c d e : same_action n c d -> same_action n d e -> same_action n c e. Proof. apply equiv_trans. Qed.
Lemma same_app n a b c d : same_action n a b -> same_action n c d -> same_action n (a ++ c) (b ++ d).
Proof. unfold RBSeqSpec.same_action. rewrite !map_app. apply equiv_app. Qed.
Lemma identity_app n a b : identity_on n a -> identity_on n b -> identity_on n (a ++ b).
Proof. intros H K. unfold RBSeqSpec.identity_on. change (@nil ginstr) with (@nil ginstr ++ []). apply same_app; auto. Qed.

Lemma fits_ok n c : fits n c -> Forall (ok_op n) (map op_of c).
Proof. intros H. apply Forall_forall. intros o Ho. apply in_map_iff in Ho. destruct Ho as [g [<- Hg]]. unfold fits in H. rewrite Forall_forall in H. destruct (H g Hg) as (_ & A & B). split; auto. Qed.
Lemma map_on pat c : map op_of (map (on pat) c) = map (relabel pat) (map op_of c).
Proof. rewrite !map_map. reflexivity. Qed.

Lemma same_on N pat c d : NoDup pat -> (forall q, In q pat -> q < N) -> fits (length pat) c -> fits (length pat) d ->
  same_action (length pat) c d -> same_action N (map (on pat) c) (map (on pat) d).
Proof. intros Hp HN Hc Hd H. unfold RBSeqSpec.same_action. rewrite !map_on. apply equiv_place; auto using fits_ok. Qed.

Lemma filter_map_op P c : filter P (map op_of c) = map op_of (filter (fun g => P (op_of g)) c).
Proof. induction c as [|g c IH]; cbn; auto. destruct (P (op_of g)); cbn; rewrite IH; reflexivity. Qed.

(** Gates on disjoint patterns, identity on each pattern. *)
Lemma patterns_identity N pats : NoDup (concat pats) -> forall c, fits N c ->
  (forall g, In g c -> exists pat, In pat pats /\ forall q, In q (gqubits g) -> In q pat) ->
  (forall pat, In pat pats -> identity_on N (within pat c)) -> identity_on N c.
Proof.
  induction pats as [|pat pats IH]; intros Hd c Hf Hin Hid.
  - destruct c as [|g c]; [apply same_refl|]. destruct (Hin g (or_introl eq_refl)) as [? [[] _]].
  - cbn [concat] in Hd. apply nodup_app_iff in Hd. destruct Hd as (Hd1 & Hd2 & Hdis).
    assert (Hne : forall g, In g c -> gqubits g <> []) by (intros g Hg; unfold fits in Hf; rewrite Forall_forall in Hf; apply Hf, Hg).
    set (P := fun o : op F => forallb (fun q => mem q pat) (o_qs o)).
    assert (Hout : forall g, In g c -> P (op_of g) = false -> exists pat', In pat' pats /\ forall q, In q (gqubits g) -> In q pat').
    { intros g Hg HP. destruct (Hin g Hg) as [pat' [[<-|Hi] Hq]]; [|eauto]. exfalso.
      unfold P in HP. cbn [o_qs RBSeqSpec.op_of] in HP. rewrite <- not_true_iff_false in HP. apply HP. apply forallb_forall. intros q Hq'. apply mem_In, Hq, Hq'. }
    set (rest := filter (fun g => negb (P (op_of g))) c).
    assert (E : same_action N c (within pat c ++ rest)).
    { unfold RBSeqSpec.same_action. rewrite map_app. unfold rest, within.
      replace (map op_of (filter (fun g => forallb (fun q => mem q pat) (gqubits g)) c)) with (filter P (map op_of c)) by apply filter_map_op.
      replace (map op_of (filter (fun g => negb (P (op_of g))) c)) with (filter (fun o => negb (P o)) (map op_of c)) by apply filter_map_op.
      apply equiv_select; [apply fits_ok, Hf|]. intros o o' Ho Ho' HP HP'.
      apply in_map_iff in Ho. destruct Ho as [g [<- Hg]]. apply in_map_iff in Ho'. destruct Ho' as [g' [<- Hg']].
      intros q Hq Hq'. destruct (Hout g' Hg' HP') as [pat' [Hp' Hq2]].
      unfold P in HP. rewrite forallb_forall in HP. specialize (HP q Hq). apply mem_In in HP.
      apply (Hdis q HP). apply in_concat. exists pat'. split; auto. }
    apply (same_trans N _ _ _ E). apply identity_app; [apply Hid; left; reflexivity|].
    apply IH; auto.
    + unfold fits, rest. apply Forall_forall. intros g Hg. apply filter_In in Hg. unfold fits in Hf. rewrite Forall_forall in Hf. apply Hf, Hg.
    + intros g Hg. apply filter_In in Hg. destruct Hg as [Hg HP]. apply Hout; auto. destruct (P (op_of g)); [discriminate | reflexivity].
    + intros pat' Hp'. replace (within pat' rest) with (within pat' c); [apply Hid; right; exact Hp'|].
      unfold rest, within. clear -Hne Hdis Hp'. induction c as [|g c IHc]; [reflexivity|]. cbn [filter].
      assert (IH' := IHc (fun g' Hg' => Hne g' (or_intror Hg'))). clear IHc.
      destruct (forallb (fun q => mem q pat') (gqubits g)) eqn:E'.
      * assert (P (op_of g) = false) as ->.
        { unfold P. cbn [o_qs RBSeqSpec.op_of]. pose proof (Hne g (or_introl eq_refl)) as Hg. destruct (gqubits g) as [|q qs]; [congruence|].
          cbn [forallb] in *. apply andb_true_iff in E'. destruct E' as [E' _]. apply mem_In in E'.
          assert (mem q pat = false) as ->; [|reflexivity]. apply mem_not_In. intros Hq. apply (Hdis q Hq). apply in_concat. eauto. }
        cbn [negb filter]. rewrite E'. f_equal. exact IH'.
      * destruct (P (op_of g)); cbn [negb filter]; [|rewrite E']; exact IH'.
Qed.

(** ** Products of elements *)
Lemma circ_ok G n valid a : lawful gmat G n valid -> valid a -> g_circuit G a = Ok (circ_of G a) /\ fits n (circ_of G a).
Proof. intros L H. destruct (l_circuit _ _ _ _ L a H) as [c [E Hc]]. unfold circ_of. rewrite E. auto. Qed.
Lemma inv_ok G n valid a : lawful gmat G n valid -> valid a ->
  g_inverse G a = Ok (inv_of G a) /\ fits n (inv_of G a) /\ identity_on n (circ_of G a ++ inv_of G a).
Proof.
  intros L H. destruct (l_inverse _ _ _ _ L a H) as [c [E [Hc Hi]]]. unfold inv_of. rewrite E. destruct (circ_ok _ _ _ _ L H) as [Ec _]. auto.
Qed.

Lemma product_action G n valid : lawful gmat G n valid -> forall l e0 E, valid e0 -> Forall valid l -> foldM (g_compose G) l e0 = Ok E ->
  valid E /\ same_action n (circ_of G E) (circ_of G e0 ++ flat_map (circ_of G) l).
Proof.
  intros L. induction l as [|a l IH]; intros e0 E V0 Vl H; cbn [foldM] in H.
  - injection H as <-. split; auto. cbn. rewrite app_nil_r. apply same_refl.
  - inv_bind H. inversion Vl as [|? ? Va Vl']; subst. destruct (l_compose _ _ _ _ L e0 a V0 Va) as [e [Ee [Ve Hs]]].
    rewrite Ee in E0. injection E0 as <-. destruct (IH _ _ Ve Vl' H) as [VE SE]. split; [exact VE|].
    apply (same_trans n _ _ _ SE). cbn [flat_map]. rewrite app_assoc. apply same_app; [|apply same_refl].
    apply Hs; eapply circ_ok; eauto.
Qed.

Lemma product_total G n valid : lawful gmat G n valid -> forall l e0, valid e0 -> Forall valid l -> exists E, foldM (g_compose G) l e0 = Ok E.
Proof.
  intros L. induction l as [|a l IH]; intros e0 V0 Vl; cbn [foldM]; [eauto|]. inversion Vl as [|? ? Va Vl']; subst.
  destruct (l_compose _ _ _ _ L e0 a V0 Va) as [e [Ee [Ve _]]]. rewrite Ee. cbn. apply IH; auto.
Qed.

Section Main.
Variable grp : group_type -> group.
Variable t : group_type.
Variable pattern : list (list nat).
Variable inter : option (list (elem (grp t))).
Variable valid : nat -> elem (grp t) -> Prop.
Notation G := (grp t).
Hypothesis Hnd : NoDup (concat pattern).
Hypothesis Hlaw : forall pat, In pat pattern -> lawful gmat G (length pat) (valid (length pat)).
Hypothesis Hdraw : forall pat, In pat pattern -> draws_valid G (length pat) (valid (length pat)).
Hypothesis Hint : forall ies p ie, inter = Some ies -> nth_error ies p = Some ie -> p < length pattern -> valid (length (qubits_of pattern p)) ie.

Lemma pat_in p : p < length pattern -> In (qubits_of pattern p) pattern.
Proof. apply nth_In. Qed.
Lemma pat_nth p : p < length pattern -> nth_error pattern p = Some (qubits_of pattern p).
Proof. intros H. apply nth_error_nth'. exact H. Qed.

Definition good_ev (ev : event G) : Prop := ev_p ev < length pattern /\ drawn G pattern ev.
Lemma good_valid ev : good_ev ev -> valid (length (qubits_of pattern (ev_p ev))) (ev_e ev).
Proof.
  intros [Hp Hd]. destruct (Hdraw _ (pat_in _ Hp) (ev_rs ev) (ev_k ev)) as [e [E V]]. unfold drawn in Hd. rewrite E in Hd. injection Hd as <-. exact V.
Qed.

Lemma els_valid it p evs : (it = None \/ it = inter) -> Forall good_ev evs -> p < length pattern -> Forall (valid (length (qubits_of pattern p))) (els grp t it p evs).
Proof.
  intros Hit H Hp. unfold els. apply Forall_forall. intros e He. apply in_flat_map in He. destruct He as [ev [Hev He]].
  apply filter_In in Hev. destruct Hev as [Hev Ep]. apply Nat.eqb_eq in Ep. rewrite Forall_forall in H. pose proof (H ev Hev) as Hg.
  destruct He as [<-|He].
  - rewrite <- Ep. apply good_valid, Hg.
  - destruct it as [ies|]; [|destruct He]. destruct Hit as [|Hit]; [discriminate|].
    destruct (nth_error ies (ev_p ev)) as [ie|] eqn:Ei; [|destruct He]. destruct He as [<-|[]].
    rewrite <- Ep. apply (Hint ies); auto. apply Hg.
Qed.

(** Gates of a recorded sequence. *)
Definition ev_circs (it : option (list (elem G))) (ev : event G) : list ginstr :=
  circ_of G (ev_e ev) ++ match it with None => [] | Some ies => match nth_error ies (ev_p ev) with Some ie => circ_of G ie | None => [] end end.

Lemma gates_placed p c : gates (placed pattern p c) = map (on (qubits_of pattern p)) c.
Proof. induction c; cbn; auto. f_equal. exact IHc. Qed.

Lemma gates_ev it ev : gates (ev_body G pattern it ev) = map (on (qubits_of pattern (ev_p ev))) (ev_circs it ev).
Proof.
  unfold ev_body, ev_circs. rewrite !gates_app, gates_placed, map_app. cbn [gates flat_map app]. f_equal.
  destruct it as [ies|]; [|reflexivity]. destruct (nth_error ies (ev_p ev)); [|reflexivity].
  rewrite gates_app, gates_placed. cbn. apply app_nil_r.
Qed.

Lemma gates_seq it align steps : gates (seq_body G pattern it align steps) =
  flat_map (fun ev => map (on (qubits_of pattern (ev_p ev))) (ev_circs it ev)) (concat steps).
Proof.
  induction steps as [|evs steps IH]; [reflexivity|].
  change (seq_body G pattern it align (evs :: steps)) with (step_body G pattern it align evs ++ seq_body G pattern it align steps).
  cbn [concat]. rewrite gates_app, IH, flat_map_app'. f_equal.
  unfold step_body. rewrite gates_app. replace (gates (if align then [CBarrier (concat pattern)] else [])) with (@nil ginstr) by (destruct align; reflexivity).
  rewrite app_nil_r. clear. induction evs as [|ev evs IH]; cbn [flat_map]; auto. rewrite gates_app, gates_ev, IH. reflexivity.
Qed.

Lemma ev_circs_fits it ev : (it = None \/ it = inter) -> good_ev ev -> fits (length (qubits_of pattern (ev_p ev))) (ev_circs it ev).
Proof.
  intros Hit Hg. unfold ev_circs. apply fits_app. pose proof (Hlaw _ (pat_in _ (proj1 Hg))) as L. split.
  - eapply circ_ok; [exact L | apply good_valid, Hg].
  - destruct it as [ies|]; [|constructor]. destruct Hit as [|Hit]; [discriminate|].
    destruct (nth_error ies (ev_p ev)) as [ie|] eqn:Ei; [|constructor].
    eapply circ_ok; [exact L|]. apply (Hint ies); auto. apply Hg.
Qed.

Lemma disjoint_pats p p' q : p <> p' -> p < length pattern -> p' < length pattern ->
  In q (qubits_of pattern p) -> ~ In q (qubits_of pattern p').
Proof. intros Hn Hp Hp'. apply (nodup_concat_disjoint pattern p p'); auto using pat_nth. Qed.

Lemma within_seq it p evs : (it = None \/ it = inter) -> Forall good_ev evs -> p < length pattern ->
  within (qubits_of pattern p) (flat_map (fun ev => map (on (qubits_of pattern (ev_p ev))) (ev_circs it ev)) evs) =
  map (on (qubits_of pattern p)) (flat_map (circ_of G) (els grp t it p evs)).
Proof.
  intros Hit H Hp. induction H as [|ev evs Hg H IH]; [reflexivity|]. cbn [flat_map]. rewrite within_app, IH.
  unfold els. cbn [filter]. destruct (Nat.eqb_spec (ev_p ev) p) as [Ep|Hne].
  - cbn [flat_map]. rewrite flat_map_app', map_app. f_equal. rewrite <- Ep.
    rewrite within_self by (apply ev_circs_fits; auto).
    f_equal. unfold ev_circs. cbn [flat_map]. f_equal.
    destruct it as [ies|]; [|reflexivity]. destruct (nth_error ies (ev_p ev)); [|reflexivity]. cbn. rewrite app_nil_r. reflexivity.
  - rewrite within_other; [reflexivity | apply ev_circs_fits; auto|].
    intros q Hq. apply (disjoint_pats (ev_p ev) p); auto. apply Hg.
Qed.

(** The inverse circuits. *)
Lemma inverses_inv E cs : inverses grp t pattern E = Ok cs -> 
  cs = flat_map (fun p => match nth_error E p with Some e => placed pattern p (inv_of G e) | None => [] end) (seq 0 (length pattern)) /\
  length pattern <= length E.
Proof.
  clear dependent valid. clear inter Hnd. unfold inverses. intros H. inv_bind H. injection H as <-. apply mapM_inv in E0.
  split.
  - revert v E0. generalize (seq 0 (length pattern)) as l. induction l as [|p l IH]; intros v H; inversion H as [|? ? ? ? H1 H2]; subst; [reflexivity|].
    cbn [flat_map concat]. f_equal; [|apply IH; exact H2]. inv_bind H1. inv_bind H1. apply index_inv in E0. rewrite E0.
    apply replace_inv in H1. subst. unfold inv_of. rewrite E1. reflexivity.
  - destruct (Nat.le_gt_cases (length pattern) (length E)) as [|Hgt]; [assumption|exfalso].
    destruct (Forall2_in_l _ _ _ (length E) E0) as [b [_ Hb]]; [apply in_seq; lia|].
    inv_bind Hb. apply index_inv in E1. apply nth_error_lt in E1. lia.
Qed.

Lemma within_flat (f : nat -> list ginstr) p l : NoDup l -> In p l -> (forall p', In p' l -> p' < length pattern /\ fits (length (qubits_of pattern p')) (f p')) ->
  within (qubits_of pattern p) (flat_map (fun p' => map (on (qubits_of pattern p')) (f p')) l) = map (on (qubits_of pattern p)) (f p).
Proof.
  assert (Hz : forall p l, p < length pattern -> ~ In p l -> (forall p', In p' l -> p' < length pattern /\ fits (length (qubits_of pattern p')) (f p')) ->
     within (qubits_of pattern p) (flat_map (fun p' => map (on (qubits_of pattern p')) (f p')) l) = []).
  { clear p l. intros p l Hlt. induction l as [|a l IH]; intros Hn Hf; [reflexivity|]. cbn [flat_map]. rewrite within_app, IH.
    - rewrite within_other; [reflexivity | apply Hf; left; reflexivity|]. intros q Hq. apply (disjoint_pats a p); auto.
      + intros ->. apply Hn. left; reflexivity.
      + apply Hf. left; reflexivity.
    - intros Hi. apply Hn. right; exact Hi.
    - intros p' Hp'. apply Hf. right; exact Hp'. }
  intros Hd Hi Hf. induction Hd as [|a l Ha Hd IH]; [destruct Hi|]. cbn [flat_map]. rewrite within_app.
  destruct Hi as [->|Hi].
  - rewrite within_self by (apply Hf; left; reflexivity). rewrite Hz; [apply app_nil_r | apply Hf; left; reflexivity | exact Ha|].
    intros p' Hp'. apply Hf. right; exact Hp'.
  - rewrite within_other; [|apply Hf; left; reflexivity|].
    + cbn [app]. apply IH; auto. intros p' Hp'. apply Hf. right; exact Hp'.
    + intros q Hq. apply (disjoint_pats a p); auto; try (apply Hf; auto; left; reflexivity).
      * intros ->. apply Ha, Hi.
      * apply Hf. right. exact Hi.
Qed.

(** A whole benchmarking body: the recorded sequence and the inverses. *)
Lemma body_identity it steps align l0 l1 inv N : (it = None \/ it = inter) -> Forall good_ev (concat steps) ->
  mapM (fun pat => g_iden G (length pat)) pattern = Ok l0 -> upd_els grp t it (concat steps) l0 l1 ->
  inverses grp t pattern l1 = Ok inv -> (forall q, In q (concat pattern) -> q < N) ->
  (forall p, p < length pattern -> identity_on N (within (qubits_of pattern p) (gates (seq_body G pattern it align steps ++ inv)))) /\
  identity_on N (gates (seq_body G pattern it align steps ++ inv)) /\
  fits N (gates (seq_body G pattern it align steps ++ inv)).
Proof.
  intros Hit Hg H0 [Hlen Hup] Hinv HN. apply inverses_inv in Hinv. destruct Hinv as [-> Hl1].
  set (f := fun p => match nth_error l1 p with Some e => inv_of G e | None => [] end).
  assert (Hfin : forall p, p < length pattern -> exists E, nth_error l1 p = Some E /\ valid (length (qubits_of pattern p)) E /\
     same_action (length (qubits_of pattern p)) (circ_of G E) (flat_map (circ_of G) (els grp t it p (concat steps)))).
  { intros p Hp. apply mapM_inv in H0. pose proof (Forall2_length' _ _ _ H0) as L0.
    destruct (nth_error l0 p) as [e0|] eqn:E0; [|apply nth_error_None in E0; lia].
    pose proof (Forall2_nth _ _ _ _ _ _ H0 (pat_nth p Hp) E0) as Eid. cbn beta in Eid.
    pose proof (Hlaw _ (pat_in _ Hp)) as L. destruct (l_iden _ _ _ _ L) as [e [Ee [Ve He]]]. rewrite Ee in Eid. injection Eid as ->.
    destruct (Hup p e0 E0) as [e1 [E1 F1]]. destruct (product_action _ _ _ L _ _ _ Ve (els_valid it p _ Hit Hg Hp) F1) as [V1 S1].
    exists e1. split; [exact E1|]. split; [exact V1|]. apply (same_trans _ _ _ _ S1).
    rewrite <- (app_nil_l (flat_map (circ_of G) (els grp t it p (concat steps)))) at 2.
    apply same_app; [|apply same_refl]. apply He. eapply circ_ok; eauto. }
  assert (Hf : forall p, In p (seq 0 (length pattern)) -> p < length pattern /\ fits (length (qubits_of pattern p)) (f p)).
  { intros p Hp. apply in_seq in Hp. split; [lia|]. destruct (Hfin p) as [E [E1 [V _]]]; [lia|]. unfold f. rewrite E1.
    eapply inv_ok; [apply Hlaw, pat_in; lia | exact V]. }
  assert (Hgi : gates (flat_map (fun p => match nth_error l1 p with Some e => placed pattern p (inv_of G e) | None => [] end) (seq 0 (length pattern))) =
     flat_map (fun p => map (on (qubits_of pattern p)) (f p)) (seq 0 (length pattern))).
  { unfold f. generalize (seq 0 (length pattern)). induction l as [|p l IH]; cbn [flat_map]; auto. rewrite gates_app, IH. f_equal.
    destruct (nth_error l1 p); [apply gates_placed | reflexivity]. }
  rewrite gates_app, gates_seq, Hgi.
  assert (HW : forall p, p < length pattern ->
     identity_on N (within (qubits_of pattern p) (flat_map (fun ev => map (on (qubits_of pattern (ev_p ev))) (ev_circs it ev)) (concat steps) ++ flat_map (fun p => map (on (qubits_of pattern p)) (f p)) (seq 0 (length pattern))))).
  { intros p Hp. rewrite within_app, within_seq, within_flat; auto using seq_NoDup; [|apply in_seq; lia].
    destruct (Hfin p Hp) as [E [E1 [V S]]]. unfold f. rewrite E1. rewrite <- map_app.
    pose proof (Hlaw _ (pat_in _ Hp)) as L. destruct (inv_ok _ _ _ _ L V) as [_ [Fi Ii]].
    unfold RBSeqSpec.identity_on. change (@nil ginstr) with (map (on (qubits_of pattern p)) []). apply same_on.
    - apply (nodup_concat_in pattern); auto using pat_in.
    - intros q Hq. apply HN. apply in_concat. exists (qubits_of pattern p). auto using pat_in.
    - apply fits_app. split; [|exact Fi]. apply fits_flat_map. intros e He.
      pose proof (els_valid it p _ Hit Hg Hp) as HV. rewrite Forall_forall in HV. eapply circ_ok; [exact L | apply HV, He].
    - constructor.
    - apply (same_trans _ _ (circ_of G E ++ inv_of G E)); [|exact Ii]. apply same_app; [apply same_sym, S | apply same_refl]. }
  assert (HF2 : fits N (flat_map (fun ev => map (on (qubits_of pattern (ev_p ev))) (ev_circs it ev)) (concat steps) ++ flat_map (fun p => map (on (qubits_of pattern p)) (f p)) (seq 0 (length pattern))) /\
     forall g, In g (flat_map (fun ev => map (on (qubits_of pattern (ev_p ev))) (ev_circs it ev)) (concat steps) ++ flat_map (fun p => map (on (qubits_of pattern p)) (f p)) (seq 0 (length pattern))) ->
       exists pat, In pat pattern /\ forall q, In q (gqubits g) -> In q pat).
  { assert (Hone : forall p c, p < length pattern -> fits (length (qubits_of pattern p)) c -> fits N (map (on (qubits_of pattern p)) c)).
    { intros p c Hp Hc. apply Forall_forall. intros g Hgi'. destruct (on_qubits _ _ _ Hc Hgi') as [A B]. split; [exact A|].
      apply in_map_iff in Hgi'. destruct Hgi' as [g' [<- Hg']]. unfold fits in Hc. rewrite Forall_forall in Hc. destruct (Hc g' Hg') as (_ & C & D).
      split; [cbn; apply nodup_place; auto; apply (nodup_concat_in pattern); auto using pat_in|].
      intros q Hq. apply HN. apply in_concat. exists (qubits_of pattern p). split; [apply pat_in, Hp | apply B, Hq]. }
    split.
    - apply fits_app. split; apply fits_flat_map.
      + intros ev Hev. rewrite Forall_forall in Hg. apply Hone; [apply (Hg ev Hev) | apply ev_circs_fits; auto].
      + intros p Hp. destruct (Hf p Hp). apply Hone; auto.
    - intros g Hgi'. apply in_app_iff in Hgi'. destruct Hgi' as [K|K]; apply in_flat_map in K; destruct K as [a [Ha K]].
      + rewrite Forall_forall in Hg. exists (qubits_of pattern (ev_p a)). split; [apply pat_in, (Hg a Ha)|].
        apply (on_qubits _ _ _ (ev_circs_fits it a Hit (Hg a Ha)) K).
      + destruct (Hf a Ha) as [A B]. exists (qubits_of pattern a). split; [apply pat_in, A|]. apply (on_qubits _ _ _ B K). }
  split; [exact HW|]. split; [|apply HF2].
  apply (patterns_identity N pattern); auto; try apply HF2.
  intros pat Hp. apply In_nth_error in Hp. destruct Hp as [p Ep]. pose proof (nth_error_lt _ _ _ Ep) as Hp.
  rewrite pat_nth in Ep by exact Hp. injection Ep as <-. apply HW, Hp.
Qed.
End Main.

(** ** Hadamard gates around an identity *)
Definition hgate (q : nat) : ginstr := {| gname := str "h"; gparams := []; gqubits := [q] |}.
Lemma gates_h_before qs : gates (h_before qs) = map hgate qs.
Proof. induction qs; cbn; auto. f_equal. exact IHqs. Qed.
Lemma gates_h_after qs : gates (h_after qs) = map hgate qs.
Proof. induction qs; cbn; auto. f_equal. exact IHqs. Qed.

Lemma fits_h N qs : (forall q, In q qs -> q < N) -> fits N (map hgate qs).
Proof.
  intros H. apply Forall_forall. intros g Hg. apply in_map_iff in Hg. destruct Hg as [q [<- Hq]]. cbn.
  split; [discriminate|]. split; [repeat constructor; intros []|]. intros q' [<-|[]]. auto.
Qed.

Lemma hh_identity N qs : h_involution gmat -> NoDup qs -> (forall q, In q qs -> q < N) -> identity_on N (map hgate qs ++ map hgate qs).
Proof.
  intros Hh Hd HN. apply (patterns_identity N (map (fun q => [q]) qs)).
  - replace (concat (map (fun q => [q]) qs)) with qs; [exact Hd|]. clear. induction qs; cbn; congruence.
  - apply fits_app. split; apply fits_h; exact HN.
  - intros g Hg. apply in_app_iff in Hg. assert (In g (map hgate qs)) as Hg' by tauto. apply in_map_iff in Hg'. destruct Hg' as [q [<- Hq]].
    exists [q]. split; [apply in_map_iff; eauto|]. cbn. intros q' [<-|[]]. left; reflexivity.
  - intros pat Hp. apply in_map_iff in Hp. destruct Hp as [q [<- Hq]]. rewrite within_app.
    assert (E : within [q] (map hgate qs) = [hgate q]).
    { clear -Hd Hq. induction Hd as [|a l Ha Hd IH]; [destruct Hq|]. cbn [map within filter hgate gqubits forallb].
      unfold mem. cbn [existsb]. destruct (eqb_spec a q) as [->|Hn]; cbn [orb andb].
      - f_equal. apply filter_none. intros g Hg. apply in_map_iff in Hg. destruct Hg as [b [<- Hb]]. cbn.
        destruct (eqb_spec b q) as [->|]; [exfalso; apply Ha, Hb | reflexivity].
      - destruct Hq as [->|Hq]; [congruence|]. apply IH, Hq. }
    rewrite E. change ([hgate q] ++ [hgate q]) with (map (on [q]) [hgate 0; hgate 0]).
    unfold RBSeqSpec.identity_on. change (@nil ginstr) with (map (on [q]) []). apply same_on.
    + repeat constructor; intros [].
    + intros q' [<-|[]]. apply HN, Hq.
    + apply (fits_app _ [hgate 0] [hgate 0]). split; apply (fits_h 1 [0]); intros q' [<-|[]]; lia.
    + constructor.
    + exact Hh.
Qed.

Lemma within_h pat qs : within pat (map hgate qs) = map hgate (filter (fun q => mem q pat) qs).
Proof.
  induction qs as [|q qs IH]; [reflexivity|]. cbn [map within filter hgate gqubits forallb]. rewrite andb_true_r.
  destruct (mem q pat); cbn [map]; [f_equal|]; exact IH.
Qed.

Lemma sandwich N qs body : h_involution gmat -> NoDup qs -> (forall q, In q qs -> q < N) -> identity_on N (gates body) ->
  identity_on N (gates (h_before qs ++ body ++ h_after qs)).
Proof.
  intros Hh Hd HN Hb. rewrite !gates_app, gates_h_before, gates_h_after.
  apply (same_trans _ _ (map hgate qs ++ [] ++ map hgate qs)).
  - apply same_app; [apply same_refl|]. apply same_app; [exact Hb | apply same_refl].
  - cbn [app]. apply hh_identity; auto.
Qed.
Lemma sandwich_within N qs body pat : h_involution gmat -> NoDup qs -> (forall q, In q qs -> q < N) -> identity_on N (within pat (gates body)) ->
  identity_on N (within pat (gates (h_before qs ++ body ++ h_after qs))).
Proof.
  intros Hh Hd HN Hb. rewrite !gates_app, gates_h_before, gates_h_after, !within_app, !within_h.
  set (qs' := filter (fun q => mem q pat) qs).
  apply (same_trans _ _ (map hgate qs' ++ [] ++ map hgate qs')).
  - apply same_app; [apply same_refl|]. apply same_app; [exact Hb | apply same_refl].
  - cbn [app]. apply hh_identity; auto; [apply NoDup_filter, Hd|]. intros q Hq. apply filter_In in Hq. apply HN, Hq.
Qed.
End Act.
