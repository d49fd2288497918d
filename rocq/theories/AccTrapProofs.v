(** Noiseless traps (C38). *)
From Coq Require Import QArith Permutation.
From Verif Require Import Base LinAlg ResultFacts QSem CountsModel DihedralModel RBSeqModel RBSeqSpec RBSeqActProofs StdGates AccModel AccSpec AccLayerProofs AccQotpProofs AccProbProofs.
Open Scope nat_scope.

Section Trap.
Context {F : Type} {HF : Fld F}.
Add Field FldFieldT : fth.
Variable gmat : pystr -> list Q -> bits -> bits -> F.
Notation same_action := (same_action gmat).
Notation op_of := (op_of gmat).
Variables r i : F.
Hypothesis Hstd : std_gates gmat r i.
Notation ops_of l := (map op_of (gates l)).
Variable n : nat.

Ltac gqs := repeat match goal with |- context [{| gname := str ?a; gparams := []; gqubits := ?l |}] => change {| gname := str a; gparams := []; gqubits := l |} with (gq a l) end.

Definition dir (b : bool) (q0 q1 : nat) : list nat := if b then [q1; q0] else [q0; q1].

(** Amplitudes as functions of two of the bits. *)
Section Slice.
Variables q0 q1 : nat.
Hypothesis H0 : q0 < n.
Hypothesis H1 : q1 < n.
Hypothesis Hne : q0 <> q1.
Variable y : bits.
Hypothesis Hy : length y = n.
Definition sl (phi : amp F) (a b : bool) : F := phi (set1 (set1 y q0 a) q1 b).
Lemma sl_id phi : phi y = sl phi (nth q0 y false) (nth q1 y false).
Proof. unfold sl. rewrite set1_same. rewrite set1_same. reflexivity. Qed.
Lemma bit0 a b : nth q0 (set1 (set1 y q0 a) q1 b) false = a.
Proof. rewrite nth_set1_ne by congruence. apply nth_set1_eq. lia. Qed.
Lemma bit1 a b : nth q1 (set1 (set1 y q0 a) q1 b) false = b.
Proof. apply nth_set1_eq. rewrite length_set1. lia. Qed.
Lemma set0 a b c : set1 (set1 (set1 y q0 a) q1 b) q0 c = set1 (set1 y q0 c) q1 b.
Proof. rewrite (set1_comm _ q1 q0) by congruence. rewrite set1_set1. reflexivity. Qed.
Lemma set1' a b c : set1 (set1 (set1 y q0 a) q1 b) q1 c = set1 (set1 y q0 a) q1 c.
Proof. apply set1_set1. Qed.
Lemma sl_h0 phi a b : sl (apply (op_of (gq "h" [q0])) phi) a b = fmul r (fadd (sl phi false b) (fmul (sgn a) (sl phi true b))).
Proof. unfold sl. rewrite (apply_h gmat r i Hstd), bit0, !set0. reflexivity. Qed.
Lemma sl_h1 phi a b : sl (apply (op_of (gq "h" [q1])) phi) a b = fmul r (fadd (sl phi a false) (fmul (sgn b) (sl phi a true))).
Proof. unfold sl. rewrite (apply_h gmat r i Hstd), bit1, !set1'. reflexivity. Qed.
Lemma sl_s0 phi a b : sl (apply (op_of (gq "s" [q0])) phi) a b = fmul (if a then i else f1) (sl phi a b).
Proof. unfold sl. rewrite (apply_s gmat r i Hstd), bit0. reflexivity. Qed.
Lemma sl_s1 phi a b : sl (apply (op_of (gq "s" [q1])) phi) a b = fmul (if b then i else f1) (sl phi a b).
Proof. unfold sl. rewrite (apply_s gmat r i Hstd), bit1. reflexivity. Qed.
Lemma sl_sdg0 phi a b : sl (apply (op_of (gq "sdg" [q0])) phi) a b = fmul (if a then fopp i else f1) (sl phi a b).
Proof. unfold sl. rewrite (apply_sdg gmat r i Hstd), bit0. reflexivity. Qed.
Lemma sl_sdg1 phi a b : sl (apply (op_of (gq "sdg" [q1])) phi) a b = fmul (if b then fopp i else f1) (sl phi a b).
Proof. unfold sl. rewrite (apply_sdg gmat r i Hstd), bit1. reflexivity. Qed.
Lemma sl_cx phi a b : sl (apply (op_of (gq "cx" [q0; q1])) phi) a b = sl phi a (xorb b a).
Proof. unfold sl. rewrite (apply_cx gmat r i Hstd), bit0, bit1, set1' by congruence. reflexivity. Qed.
Lemma sl_xc phi a b : sl (apply (op_of (gq "cx" [q1; q0])) phi) a b = sl phi (xorb a b) b.
Proof. unfold sl. rewrite (apply_cx gmat r i Hstd), bit0, bit1, set0 by congruence. reflexivity. Qed.
Lemma sl_cz phi a b : sl (apply (op_of (gq "cz" [q0; q1])) phi) a b = fmul (sgn (a && b)) (sl phi a b).
Proof. unfold sl. rewrite (apply_cz gmat r i Hstd), bit0, bit1 by congruence. reflexivity. Qed.
End Slice.

Lemma trap_pair_action g2 b q0 q1 pre post : q0 < n -> q1 < n -> q0 <> q1 -> trap_pair g2 b q0 q1 = Ok (pre, post) ->
  same_action n (gates (pre ++ [CGate {| gname := g2; gparams := []; gqubits := [q0; q1] |}] ++ post)) [gq "cx" (dir b q0 q1)].
Proof.
  intros H0 H1 Hne E. unfold trap_pair in E. pose proof (sg_r _ _ _ Hstd) as Hr. pose proof (sg_i _ _ _ Hstd) as Hi.
  assert (Hi' : fmul (fopp i) i = f1) by (transitivity (fopp (fmul i i)); [ring | rewrite Hi; ring]).
  exists f1. split; [apply f1_neq_0|]. intros psi y Hy.
  destruct (eqb_spec g2 (str "cx")) as [->|_]; [|destruct (eqb_spec g2 (str "cz")) as [->|_]; [|discriminate]];
  destruct b; injection E as <- <-; cbn [dir app gates flat_map had gate1 map run]; gqs;
  rewrite !(sl_id q0 q1 y);
  repeat first [rewrite (sl_h0 q0 q1 H0 H1 Hne y Hy) | rewrite (sl_h1 q0 q1 H0 H1 Hne y Hy) | rewrite (sl_s0 q0 q1 H0 H1 Hne y Hy) | rewrite (sl_s1 q0 q1 H0 H1 Hne y Hy)
    | rewrite (sl_sdg0 q0 q1 H0 H1 Hne y Hy) | rewrite (sl_sdg1 q0 q1 H0 H1 Hne y Hy) | rewrite (sl_cx q0 q1 H0 H1 Hne y Hy) | rewrite (sl_xc q0 q1 H0 H1 Hne y Hy)
    | rewrite (sl_cz q0 q1 H0 H1 Hne y Hy)];
  generalize (sl q0 q1 y psi); intros f; destruct (nth q0 y false), (nth q1 y false); cbn [xorb andb sgn].
  all: match goal with |- _ = fmul f1 ?x => 
    first [ ring
          | transitivity (fmul (fmul (fadd f1 f1) (fmul r r)) x); [ring | rewrite Hr; ring]
          | transitivity (fmul (fmul (fopp i) i) x); [ring | rewrite Hi'; ring]
          | transitivity (fmul (fmul (fopp i) i) (fmul (fmul (fadd f1 f1) (fmul r r)) x)); [ring | rewrite Hi', Hr; ring]
          | transitivity (fmul (fmul (fmul (fadd f1 f1) (fmul r r)) (fmul (fadd f1 f1) (fmul r r))) x); [ring | rewrite Hr; ring]
          | transitivity (fmul (fmul (fopp i) i) (fmul (fmul (fmul (fadd f1 f1) (fmul r r)) (fmul (fadd f1 f1) (fmul r r))) x)); [ring | rewrite Hi', Hr; ring] ] end.
Qed.

Lemma trap_idle_action b q : q < n -> same_action n (gates (fst (trap_idle b q) ++ snd (trap_idle b q))) [].
Proof.
  intros Hq. pose proof (sg_r _ _ _ Hstd) as Hr. pose proof (sg_i _ _ _ Hstd) as Hi.
  assert (Hi' : fmul (fopp i) i = f1) by (transitivity (fopp (fmul i i)); [ring | rewrite Hi; ring]).
  exists f1. split; [apply f1_neq_0|]. intros psi y Hy. destruct b; cbn [trap_idle fst snd app gates flat_map had gate1 map run]; gqs.
  - rewrite !(apply_h gmat r i Hstd), !set1_set1, !nth_set1_eq by lia.
    replace (psi y) with (psi (set1 y q (nth q y false))) by (rewrite set1_same; reflexivity).
    destruct (nth q y false); cbn [sgn];
    match goal with |- _ = fmul f1 ?x => transitivity (fmul (fmul (fadd f1 f1) (fmul r r)) x); [ring | rewrite Hr; ring] end.
  - rewrite (apply_sdg gmat r i Hstd), (apply_s gmat r i Hstd). destruct (nth q y false); [|ring].
    transitivity (fmul (fmul (fopp i) i) (psi y)); [ring | rewrite Hi'; ring].
Qed.

(** ** One layer of a trap *)
Definition is_cx (g : ginstr) : Prop := exists c t, g = gq "cx" [c; t] /\ c < n /\ t < n /\ c <> t.
Definition inside (U : list nat) (l : list cinstr) : Prop := forall g q, In g (gates l) -> In q (gqubits g) -> In q U.

Record tinv (U : list nat) (P l Q : list cinstr) (cxs : list ginstr) : Prop := {
  t_P : Forall (one_qubit n) P;
  t_Q : Forall (one_qubit n) Q;
  t_l : fits n (gates l);
  t_inP : inside U P; t_inl : inside U l; t_inQ : inside U Q;
  t_act : same_action n (gates (P ++ l ++ Q)) cxs;
  t_cx : Forall is_cx cxs
}.
Lemma inside_app U V l m : inside U l -> inside V m -> inside (U ++ V) (l ++ m).
Proof.
  intros H1 H2 g q Hg Hq. rewrite gates_app in Hg. apply in_app_iff in Hg. apply in_app_iff. destruct Hg; [left; eapply H1|right; eapply H2]; eauto.
Qed.
Lemma apart_inside U V l m : inside U l -> inside V m -> (forall q, In q V -> ~ In q U) -> apart (gates m) (gates l).
Proof. intros H1 H2 Hd g g' q Hg Hg' Hq Hq'. apply (Hd q); [eapply H2; eauto | eapply H1; eauto]. Qed.

Lemma swap_front a b c : fits n a -> fits n b -> apart a b -> same_action n (a ++ b ++ c) (b ++ a ++ c).
Proof. intros. rewrite !app_assoc. apply same_post, same_swap; auto. Qed.

Lemma tinv_add U V P l Q cxs p m q cs : tinv U P l Q cxs -> tinv V p m q cs -> (forall x, In x V -> ~ In x U) ->
  tinv (U ++ V) (P ++ p) (l ++ m) (Q ++ q) (cxs ++ cs).
Proof.
  intros [A1 A2 A3 A4 A5 A6 A7 A8] [B1 B2 B3 B4 B5 B6 B7 B8] Hd. constructor.
  - apply Forall_app; auto.
  - apply Forall_app; auto.
  - rewrite gates_app. apply fits_app; auto.
  - apply inside_app; auto.
  - apply inside_app; auto.
  - apply inside_app; auto.
  - eapply same_trans; [|apply same_app; [exact A7 | exact B7]]. rewrite !gates_app, <- !app_assoc. apply same_pre.
    apply same_trans with (gates l ++ gates p ++ gates m ++ gates Q ++ gates q).
    + apply swap_front; auto using fits_one. eapply apart_inside; eauto.
    + apply same_pre. rewrite (app_assoc (gates p)), (app_assoc (gates p) (gates m) (gates q)), (app_assoc _ (gates Q)), (app_assoc (gates Q)).
      rewrite <- !(app_assoc _ _ (gates q)). rewrite (app_assoc (gates p)). apply swap_front; auto using fits_one; [apply fits_app; auto using fits_one|]. rewrite <- gates_app. eapply (apart_inside U (V ++ V)); eauto.
      * apply inside_app; auto.
      * intros x Hx. apply in_app_iff in Hx. apply Hd. tauto.
  - apply Forall_app; auto.
Qed.
Lemma tinv_nil : tinv [] [] [] [] [].
Proof. constructor; try constructor; try (intros ? ? []); apply same_refl. Qed.
Lemma tinv_perm U U' P l Q cxs : (forall q, In q U -> In q U') -> tinv U P l Q cxs -> tinv U' P l Q cxs.
Proof. intros H [A1 A2 A3 A4 A5 A6 A7 A8]. constructor; auto; intros g q Hg Hq; apply H; [eapply A4|eapply A5|eapply A6]; eauto. Qed.

Lemma trap_pair_tinv g2 b q0 q1 p : q0 < n -> q1 < n -> q0 <> q1 -> trap_pair g2 b q0 q1 = Ok p ->
  tinv [q0; q1] (fst p) [CGate {| gname := g2; gparams := []; gqubits := [q0; q1] |}] (snd p) [gq "cx" (dir b q0 q1)].
Proof.
  intros H0 H1 Hne E. destruct p as [pre post]. pose proof (trap_pair_action g2 b q0 q1 pre post H0 H1 Hne E) as Ha. cbn [fst snd].
  assert (G : Forall (fun j => exists na q, j = gate1 na [] q /\ (q = q0 \/ q = q1)) pre /\ Forall (fun j => exists na q, j = gate1 na [] q /\ (q = q0 \/ q = q1)) post).
  { unfold trap_pair in E. destruct (eqb g2 (str "cx")); [|destruct (eqb g2 (str "cz")); [|discriminate]]; destruct b; injection E as <- <-;
    split; repeat constructor; eexists; eexists; (split; [reflexivity | auto]). }
  destruct G as [G1 G2].
  assert (One : forall l, Forall (fun j => exists na q, j = gate1 na [] q /\ (q = q0 \/ q = q1)) l -> Forall (one_qubit n) l /\ inside [q0; q1] l).
  { intros l Hl. split.
    - eapply Forall_impl; [|exact Hl]. intros j (na & q & -> & Hq). exists q. split; [reflexivity|]. destruct Hq; subst; auto.
    - intros g q Hg Hq. apply in_gates in Hg. rewrite Forall_forall in Hl. destruct (Hl _ Hg) as (na & q' & Ej & Hq'). injection Ej as ->. destruct Hq as [<-|[]].
      cbn. destruct Hq'; subst; auto. }
  constructor; try (apply One; assumption); auto.
  - apply fits2; auto.
  - intros g q [<-|[]] Hq. exact Hq.
  - repeat constructor. unfold is_cx, dir. destruct b; [exists q1, q0|exists q0, q1]; auto.
Qed.
Lemma trap_idle_tinv b q : q < n -> tinv [q] (fst (trap_idle b q)) [] (snd (trap_idle b q)) [].
Proof.
  intros Hq. pose proof (trap_idle_action b q Hq) as Ha. constructor.
  - destruct b; repeat constructor; exists q; auto.
  - destruct b; repeat constructor; exists q; auto.
  - constructor.
  - destruct b; intros g q' [<-|[]] H; exact H.
  - intros g q' [].
  - destruct b; intros g q' [<-|[]] H; exact H.
  - exact Ha.
  - constructor.
Qed.

Lemma trap_gates_tinv g2 rnd cur : forall l P l0 Q cxs U pos own inv regs pos', tinv U P l0 Q cxs ->
  Forall (two_ok g2 n) l -> NoDup (qs_of l) -> (forall q, In q (qs_of l) -> ~ In q U) ->
  foldM (trap_gate g2 rnd) l (cur ++ P, Q, U, pos) = Ok (own, inv, regs, pos') ->
  exists P' cxs', own = cur ++ P' /\ tinv regs P' (l0 ++ l) inv cxs' /\ regs = U ++ qs_of l.
Proof.
  induction l as [|j l IH]; intros P l0 Q cxs U pos own inv regs pos' T H2 Hd Hu E; cbn [foldM] in E.
  - injection E as <- <- <- <-. exists P, cxs. cbn [qs_of flat_map]. rewrite !app_nil_r. auto.
  - inv_bind E. destruct v as [[[o1 i1] r1] p1]. cbn [trap_gate] in E0. apply Forall_cons_iff in H2. destruct H2 as [Hj H2].
    destruct Hj as (c & t & -> & Hc & Ht & Hct). cbn [instr_qubits gqubits index_e nth_error bind] in E0. inv_bind E0. injection E0 as <- <- <- <-.
    rewrite <- app_assoc in E. cbn [qs_of flat_map gqubits] in Hd, Hu. fold (qs_of l) in Hd, Hu.
    assert (Hnd : NoDup (qs_of l) /\ forall q, In q (qs_of l) -> ~ In q [c; t]).
    { apply nodup_app_iff in Hd. destruct Hd as (_ & Hd & Hx). split; [exact Hd|]. intros q Hq Hq'. exact (Hx q Hq' Hq). }
    destruct (IH (P ++ fst v) (l0 ++ [CGate {| gname := g2; gparams := []; gqubits := [c; t] |}]) (Q ++ snd v) (cxs ++ [gq "cx" (dir (rnd pos) c t)]) (U ++ [c; t]) (pos + 1) own inv regs pos') as (P' & cxs' & E3 & T' & E4); auto.
    + apply tinv_add; auto; [apply trap_pair_tinv; auto|]. intros x Hx. apply Hu. apply in_app_iff. left. exact Hx.
    + apply Hnd.
    + intros q Hq Hi. apply in_app_iff in Hi. destruct Hi as [Hi|Hi]; [apply (Hu q); [apply in_app_iff; right; exact Hq|exact Hi]|]. exact (proj2 Hnd q Hq Hi).
    + exists P', cxs'. rewrite <- app_assoc in T'. split; [exact E3|split; [exact T'|]]. rewrite E4, <- app_assoc. reflexivity.
Qed.

Lemma trap_rest_tinv rnd regs cur : forall qs P l Q cxs U pos own inv pos', tinv U P l Q cxs ->
  NoDup qs -> (forall q, In q qs -> q < n) -> (forall q, In q U -> In q regs \/ ~ In q qs) -> 
  fold_left (trap_rest rnd regs) qs (cur ++ P, Q, pos) = (own, inv, pos') ->
  exists P' cxs' U', own = cur ++ P' /\ tinv U' P' l inv cxs'.
Proof.
  induction qs as [|q qs IH]; intros P l Q cxs U pos own inv pos' T Hd Hn Hu E; cbn [fold_left] in E.
  - injection E as <- <- <-. exists P, cxs, U. auto.
  - apply NoDup_cons_iff in Hd. destruct Hd as [Hq Hd]. unfold trap_rest at 2 in E. destruct (mem q regs) eqn:Em.
    + eapply IH; eauto; [intros q' H'; apply Hn; right; exact H'|]. intros q' Hq'. destruct (Hu q' Hq') as [K|K]; auto. right. intros Hi. apply K. right. exact Hi.
    + apply mem_not_In in Em. rewrite <- app_assoc in E. eapply (IH _ l _ (cxs ++ []) (U ++ [q])); [| | | |exact E]; auto.
      * pose proof (tinv_add U [q] P l Q cxs _ [] _ [] T (trap_idle_tinv (rnd pos) q (Hn q (or_introl eq_refl)))) as T'. rewrite app_nil_r in T' at 1.
        apply T'. intros x [<-|[]] Hx. destruct (Hu q Hx) as [K|K]; [contradiction|]. apply K. left. reflexivity.
      * intros q' H'. apply Hn. right. exact H'.
      * intros q' Hq'. apply in_app_iff in Hq'. destruct Hq' as [Hq'|[<-|[]]]; [|right; exact Hq].
        destruct (Hu q' Hq') as [K|K]; auto. right. intros Hi. apply K. right. exact Hi.
Qed.

Lemma trap_layer_tinv L rnd done cur pos l done' cur' pos' : ly_n L = n -> layer2 (ly_gate L) n l ->
  trap_layer L rnd (done, cur, pos) l = Ok (done', cur', pos') ->
  exists P cxs, done' = done ++ [cur ++ P] /\ Forall (one_qubit n) P /\ Forall (one_qubit n) cur' /\
    same_action n (gates (P ++ l ++ cur')) cxs /\ Forall is_cx cxs.
Proof.
  intros Hn Hl E. unfold trap_layer in E. inv_bind E. destruct v as [[[own inv] regs] p].
  pose proof (trap_gates_tinv (ly_gate L) rnd cur l [] [] [] [] [] pos own inv regs p) as G. rewrite app_nil_r in G.
  destruct G as (P & cxs & E1 & T & E2); auto.
  - apply tinv_nil.
  - apply layer2_ok, Hl.
  - apply Hl.
  - destruct (fold_left (trap_rest rnd regs) (seq 0 (ly_n L)) (own, inv, p)) as [[o2 i2] p2] eqn:Ef. injection E as <- <- <-. subst own. cbn [app] in T.
    destruct (trap_rest_tinv rnd regs cur (seq 0 (ly_n L)) P l inv cxs regs p o2 i2 p2) as (P' & cxs' & U' & -> & T'); auto.
    + apply seq_NoDup.
    + intros q Hq. apply in_seq in Hq. lia.
    + exists P', cxs'. destruct T' as [A1 A2 A3 A4 A5 A6 A7 A8]. auto.
Qed.

Lemma trap_layers_inv L rnd hs : ly_n L = n -> forall twos done cur pos seen cxs done' cur' pos', Forall (layer2 (ly_gate L) n) twos ->
  length done = length seen -> Forall (Forall (one_qubit n)) done -> Forall (one_qubit n) cur ->
  same_action n (gates (laid (combine done seen) ++ cur)) (gates hs ++ cxs) -> Forall is_cx cxs ->
  foldM (trap_layer L rnd) twos (done, cur, pos) = Ok (done', cur', pos') ->
  exists cxs', length done' = length (seen ++ twos) /\ Forall (Forall (one_qubit n)) done' /\ Forall (one_qubit n) cur' /\
    same_action n (gates (laid (combine done' (seen ++ twos)) ++ cur')) (gates hs ++ cxs') /\ Forall is_cx cxs'.
Proof.
  intros Hn. induction twos as [|l twos IH]; intros done cur pos seen cxs done' cur' pos' H2 Hlen Hd Hc Ha Hx E; cbn [foldM] in E.
  - injection E as <- <- <-. exists cxs. rewrite app_nil_r. auto.
  - inv_bind E. destruct v as [[d1 c1] p1]. apply Forall_cons_iff in H2. destruct H2 as [Hl H2].
    destruct (trap_layer_tinv L rnd done cur pos l d1 c1 p1 Hn Hl E0) as (P & cs & -> & HP & Hc1 & Hact & Hcs).
    replace (seen ++ l :: twos) with ((seen ++ [l]) ++ twos) by (rewrite <- app_assoc; reflexivity).
    apply (IH (done ++ [cur ++ P]) c1 p1 (seen ++ [l]) (cxs ++ cs) done' cur' pos'); auto.
    + rewrite !app_length. cbn. lia.
    + apply Forall_app. split; [exact Hd|]. repeat constructor. apply Forall_app; auto.
    + rewrite combine_app by exact Hlen. cbn [combine]. rewrite laid_snoc. cbn [fst snd]. rewrite <- !app_assoc.
      replace (laid (combine done seen) ++ cur ++ P ++ l ++ c1) with ((laid (combine done seen) ++ cur) ++ P ++ l ++ c1) by (rewrite <- !app_assoc; reflexivity).
      rewrite gates_app, (app_assoc (gates hs)). apply same_app; auto.
    + apply Forall_app; auto.
Qed.

Lemma combine_fst {A B} (a : list A) (b : list B) : length a = length b -> map fst (combine a b) = a.
Proof. revert b; induction a as [|x a IH]; intros [|y b] H; cbn in *; try discriminate; auto. f_equal. apply IH. lia. Qed.
Lemma combine_snd {A B} (a : list A) (b : list B) : length a = length b -> map snd (combine a b) = b.
Proof. revert b; induction a as [|x a IH]; intros [|y b] H; cbn in *; try discriminate; auto. f_equal. apply IH. lia. Qed.

Definition hadamards : list cinstr := map had (seq 0 n).
Lemma hadamards_one : Forall (one_qubit n) hadamards.
Proof. apply Forall_forall. intros j Hj. apply in_map_iff in Hj. destruct Hj as [q [<- Hq]]. apply in_seq in Hq. exists q. split; [reflexivity|lia]. Qed.

Lemma routine_two_action L rnd pos singles pos' : good_layers n L -> routine_two L rnd pos = Ok (singles, pos') ->
  good_layers n (trap_layers L singles) /\
  exists cxs, Forall is_cx cxs /\ let hs := if rnd pos then hadamards else [] in
    same_action n (gates (woven singles (ly_two L))) (gates hs ++ cxs ++ gates hs).
Proof.
  intros [Gn Gs Gt Gl] E. unfold routine_two in E. inv_bind E. destruct v as [[done cur] p]. injection E as <- _. rewrite Gn in *. fold hadamards in *.
  set (hs := if rnd pos then hadamards else []) in *.
  assert (Hh : Forall (one_qubit n) hs) by (unfold hs; destruct (rnd pos); [apply hadamards_one|constructor]).
  destruct (trap_layers_inv L rnd hs Gn (ly_two L) [] hs (pos + 1) [] [] done cur p) as (cxs & L1 & L2 & L3 & L4 & L5); auto.
  { rewrite app_nil_r. apply same_refl. }
  cbn [app] in L1, L4. split.
  - constructor; cbn [trap_layers ly_n ly_single ly_two ly_gate]; auto.
    + apply Forall_app. split; [exact L2|]. repeat constructor. apply Forall_app; auto.
    + rewrite app_length. cbn [length]. lia.
  - exists cxs. split; [exact L5|]. cbv zeta.
    rewrite <- (combine_fst done (ly_two L)) at 1 by exact L1. rewrite <- (combine_snd done (ly_two L)) at 2 by exact L1. rewrite woven_laid.
    rewrite app_assoc, gates_app, (app_assoc (gates hs)). apply same_post, L4.
Qed.

(** ** The ground state *)
Lemma cx_ground cxs : Forall is_cx cxs -> eqa n (run (map op_of cxs) (ground n)) (ground n).
Proof.
  induction 1 as [|g l Hg Hl IH]; intros y Hy; [reflexivity|]. destruct Hg as (c & t & -> & Hc & Ht & Hct). cbn [map run].
  rewrite (run_ext n _ _ (ground n)); [apply IH, Hy| |exact Hy]. clear y Hy. intros y Hy. rewrite (apply_cx gmat r i Hstd) by exact Hct. unfold ground.
  destruct (eqb_spec y (repeat false n)) as [->|Hne].
  - rewrite !nth_repeat. cbn [xorb].
    assert (E : set1 (repeat false n) t false = repeat false n).
    { transitivity (set1 (repeat false n) t (nth t (repeat false n) false)); [rewrite nth_repeat; reflexivity | apply set1_same]. }
    rewrite E.
    destruct (eqb_spec (repeat false n) (repeat false n)); [reflexivity|contradiction].
  - destruct (eqb_spec (set1 y t (xorb (nth t y false) (nth c y false))) (repeat false n)) as [E|_]; [|reflexivity]. exfalso. apply Hne.
    assert (B : forall j, nth j (set1 y t (xorb (nth t y false) (nth c y false))) false = false) by (intros j; rewrite E; apply nth_repeat).
    apply bits_ext; [rewrite repeat_length; exact Hy|]. intros j Hj. rewrite nth_repeat.
    assert (Ec : nth c y false = false) by (specialize (B c); rewrite nth_set1_ne in B by congruence; exact B).
    destruct (Nat.eq_dec j t) as [->|Hjt].
    + specialize (B t). rewrite nth_set1_eq in B by lia. rewrite Ec, xorb_false_r in B. exact B.
    + specialize (B j). rewrite nth_set1_ne in B by congruence. exact B.
Qed.

Definition off (qs : list nat) (y : bits) : bool := forallb (fun j => mem j qs || negb (nth j y false)) (seq 0 n).
Lemma h_ground : forall k, k <= n -> exists a, a <> f0 /\ forall y, length y = n ->
  run (ops_of (map had (seq 0 k))) (ground n) y = if off (seq 0 k) y then a else f0.
Proof.
  induction k as [|k IH]; intros Hk.
  - exists f1. split; [apply f1_neq_0|]. intros y Hy. cbn [seq map gates flat_map run]. unfold ground.
    assert (E : off [] y = eqb y (repeat false n)).
    { destruct (eqb_spec y (repeat false n)) as [->|Hne].
      - apply forallb_forall. intros j _. rewrite nth_repeat. reflexivity.
      - destruct (off [] y) eqn:E; [|reflexivity]. exfalso. apply Hne. unfold off in E. rewrite forallb_forall in E.
        apply bits_ext; [rewrite repeat_length; exact Hy|]. intros j Hj. rewrite nth_repeat. specialize (E j ltac:(apply in_seq; lia)). cbn in E. destruct (nth j y false); [discriminate|reflexivity]. }
    rewrite E. reflexivity.
  - destruct (IH ltac:(lia)) as (a & Ha & H). exists (fmul r a). split; [apply fmul_neq_0; [apply (r_neq0 gmat r i Hstd)|exact Ha]|]. intros y Hy.
    rewrite seq_S, map_app, gates_app, map_app, run_app. cbn [Nat.add map gates flat_map had gate1 app run]. gqs. rewrite (apply_h gmat r i Hstd).
    rewrite !H by (rewrite length_set1; exact Hy).
    assert (E1 : off (seq 0 k) (set1 y k true) = false).
    { destruct (off (seq 0 k) (set1 y k true)) eqn:E; [|reflexivity]. unfold off in E. rewrite forallb_forall in E. specialize (E k ltac:(apply in_seq; lia)).
      rewrite nth_set1_eq in E by lia. assert (M : mem k (seq 0 k) = false) by (apply mem_not_In; intros Hi; apply in_seq in Hi; lia). rewrite M in E. discriminate. }
    assert (E2 : off (seq 0 k) (set1 y k false) = off (seq 0 k ++ [k]) y).
    { unfold off. apply eq_true_iff_eq. rewrite !forallb_forall. split; intros E j Hj; specialize (E j Hj).
      - destruct (Nat.eq_dec j k) as [->|Hjk]; [assert (M : mem k (seq 0 k ++ [k]) = true) by (apply mem_In, in_app_iff; right; left; reflexivity); rewrite M; reflexivity|].
        rewrite nth_set1_ne in E by congruence. destruct (mem j (seq 0 k)) eqn:M; [|cbn [orb] in E; rewrite E; apply orb_true_r].
        assert (M' : mem j (seq 0 k ++ [k]) = true) by (apply mem_In, in_app_iff; left; apply mem_In; exact M). rewrite M'. reflexivity.
      - destruct (Nat.eq_dec j k) as [->|Hjk]; [rewrite nth_set1_eq by lia; apply orb_true_r|]. rewrite nth_set1_ne by congruence.
        destruct (mem j (seq 0 k ++ [k])) eqn:M; [|cbn [orb] in E; rewrite E; apply orb_true_r].
        assert (M' : mem j (seq 0 k) = true). { apply mem_In. apply mem_In in M. apply in_app_iff in M. destruct M as [M|[M|[]]]; [exact M|congruence]. } rewrite M'. reflexivity. }
    rewrite E1, E2. destruct (off (seq 0 k ++ [k]) y); ring.
Qed.
Lemma h_all : exists a, a <> f0 /\ eqa n (run (ops_of hadamards) (ground n)) (fun _ => a).
Proof.
  destruct (h_ground n (le_n n)) as (a & Ha & H). exists a. split; [exact Ha|]. intros y Hy. unfold hadamards. rewrite H by exact Hy.
  assert (E : off (seq 0 n) y = true). { apply forallb_forall. intros j Hj. assert (M : mem j (seq 0 n) = true) by (apply mem_In, Hj). rewrite M. reflexivity. }
  rewrite E. reflexivity.
Qed.
Lemma cx_const cxs a : Forall is_cx cxs -> eqa n (run (map op_of cxs) (fun _ => a)) (fun _ => a).
Proof.
  induction 1 as [|g l Hg Hl IH]; intros y Hy; [reflexivity|]. destruct Hg as (c & t & -> & Hc & Ht & Hct). cbn [map run].
  rewrite (run_ext n _ _ (fun _ => a)); [apply IH, Hy| |exact Hy]. clear y Hy. intros y Hy. rewrite (apply_cx gmat r i Hstd) by exact Hct. reflexivity.
Qed.
Lemma h_inv : h_involution gmat.
Proof.
  exists f1. split; [apply f1_neq_0|]. intros psi y Hy. pose proof (sg_r _ _ _ Hstd) as Hr. cbn [map run]. gqs.
  rewrite !(apply_h gmat r i Hstd), !set1_set1, !nth_set1_eq by lia.
  replace (psi y) with (psi (set1 y 0 (nth 0 y false))) by (rewrite set1_same; reflexivity).
  destruct (nth 0 y false); cbn [sgn];
  match goal with |- _ = fmul f1 ?x => transitivity (fmul (fmul (fadd f1 f1) (fmul r r)) x); [ring | rewrite Hr; ring] end.
Qed.
Lemma gates_hadamards : gates hadamards = map hgate (seq 0 n).
Proof. unfold hadamards. induction (seq 0 n) as [|q l IH]; [reflexivity|]. cbn. f_equal. exact IH. Qed.

Lemma trap_ground cxs (b : bool) : Forall is_cx cxs -> let hs := if b then hadamards else [] in
  exists k, k <> f0 /\ eqa n (run (map op_of (gates hs ++ cxs ++ gates hs)) (ground n)) (fun y => fmul k (ground n y)).
Proof.
  intros Hx. cbv zeta. destruct b.
  - destruct h_all as (a & Ha & H). 
    destruct (hh_identity gmat n (seq 0 n) h_inv (seq_NoDup _ _)) as (k & Hk & Hid); [intros q Hq; apply in_seq in Hq; lia|].
    rewrite <- gates_hadamards in Hid. exists k. split; [exact Hk|]. intros y Hy. rewrite !map_app, !run_app.
    assert (E : eqa n (run (map op_of cxs) (run (ops_of hadamards) (ground n))) (run (ops_of hadamards) (ground n))).
    { intros z Hz. rewrite (run_ext n _ _ (fun _ => a)); [|exact H|exact Hz]. rewrite (cx_const cxs a Hx z Hz). symmetry. apply (H z Hz). }
    rewrite (run_ext n _ _ _ E y Hy). specialize (Hid (ground n) y Hy). rewrite map_app, run_app in Hid. exact Hid.
  - exists f1. split; [apply f1_neq_0|]. intros y Hy. cbn [gates flat_map app map]. rewrite app_nil_r. rewrite (cx_ground cxs Hx y Hy). ring.
Qed.

(** ** A padded trap *)
Variable tp : list cinstr -> list cinstr.
Hypothesis Htp : transpiles gmat n tp.

Lemma trap_outcome L ops rnd pos singles pos1 circ postp pos2 : good_layers n L -> ly_meas L = measures ops ->
  routine_two L rnd pos = Ok (singles, pos1) -> qotp_fromlayers tp rnd pos1 (trap_layers L singles) = Ok (circ, postp, pos2) ->
  exists xs, length xs = n /\ postp = rev xs /\ measures circ = measures ops /\
    forall y, length y = n -> (final gmat n circ y <> f0 <-> y = xs).
Proof.
  intros G Em Er Eq. destruct (routine_two_action L rnd pos singles pos1 G Er) as [G' (cxs & Hx & Ha)].
  destruct (trap_ground cxs (rnd pos) Hx) as (k & Hk & Hg). cbv zeta in Ha, Hg.
  destruct (qotp_action gmat r i Hstd tp n Htp rnd pos1 _ circ postp pos2 G' Eq) as (zs0 & zs & xs & Lx & Ep & Mc & Act). cbn [trap_layers ly_meas ly_single ly_two] in Mc, Act.
  exists xs. split; [exact Lx|split; [exact Ep|split; [rewrite Mc, Em; apply measures_idem|]]]. intros y Hy.
  destruct Ha as [k1 [Hk1 H1]], Act as [k2 [Hk2 H2]]. unfold final. rewrite H2 by exact Hy.
  rewrite Em. rewrite !gates_app, gates_measures, app_nil_r, !map_app, !run_app.
  rewrite (run_zx gmat r i Hstd) by auto. unfold pauli. 
  assert (Lxs : length (xors y xs) = n) by (rewrite length_xors; lia).
  rewrite (run_ext n _ _ (ground n)); [|apply (run_zs_ground gmat r i Hstd)|exact Lxs]. rewrite H1 by exact Lxs. rewrite (Hg _ Lxs). unfold ground.
  destruct (eqb_spec (xors y xs) (repeat false n)) as [E|E].
  - split; [intros _|].
    + apply bits_ext; [lia|]. intros j Hj. pose proof (f_equal (fun l => nth j l false) E) as Ej. cbn beta in Ej. rewrite nth_repeat, nth_xors in Ej by lia.
      destruct (nth j y false), (nth j xs false); try reflexivity; discriminate.
    + intros _. repeat apply fmul_neq_0; auto using sgn_neq0, (f1_neq_0 (F:=F)).
  - split; [intros H; exfalso; apply H; ring|]. intros ->. exfalso. apply E. apply bits_ext; [rewrite Lxs, repeat_length; reflexivity|].
    intros j Hj. rewrite nth_repeat, nth_xors by reflexivity. apply xorb_nilpotent.
Qed.

(** ** All the circuits of a protocol run *)
Lemma generate_inv L rnd num v out pos : generate_circuits tp L rnd num v = Ok (out, pos) ->
  length out = S num /\ forall k c, nth_error out k = Some c ->
    if k =? v then exists p p', qotp_fromlayers tp rnd p L = Ok (fst c, snd c, p')
    else exists p singles p1 p2, routine_two L rnd p = Ok (singles, p1) /\ qotp_fromlayers tp rnd p1 (trap_layers L singles) = Ok (fst c, snd c, p2).
Proof.
  intros E. unfold generate_circuits in E.
  assert (G : forall m k0 out0 p0 out pos, foldM (one_circuit tp L rnd v) (seq k0 m) (out0, p0) = Ok (out, pos) -> length out0 = k0 ->
    (forall k c, nth_error out0 k = Some c -> if k =? v then exists p p', qotp_fromlayers tp rnd p L = Ok (fst c, snd c, p')
      else exists p singles p1 p2, routine_two L rnd p = Ok (singles, p1) /\ qotp_fromlayers tp rnd p1 (trap_layers L singles) = Ok (fst c, snd c, p2)) ->
    length out = k0 + m /\ forall k c, nth_error out k = Some c -> if k =? v then exists p p', qotp_fromlayers tp rnd p L = Ok (fst c, snd c, p')
      else exists p singles p1 p2, routine_two L rnd p = Ok (singles, p1) /\ qotp_fromlayers tp rnd p1 (trap_layers L singles) = Ok (fst c, snd c, p2)).
  { clear. induction m as [|m IH]; intros k0 out0 p0 out pos E Hl Hc; cbn [seq foldM] in E.
    - injection E as <- <-. split; [lia|exact Hc].
    - inv_bind E. destruct v0 as [o1 p1]. cbn [one_circuit] in E0. inv_bind E0. destruct v0 as [Lk pk]. cbn [fst snd] in E0. inv_bind E0. destruct v0 as [[c p] p2]. injection E0 as <- <-.
      destruct (IH (S k0) (out0 ++ [(c, p)]) p2 out pos E) as [A B].
      + rewrite app_length. cbn. lia.
      + intros k c' Hk. destruct (Nat.lt_ge_cases k (length out0)) as [Hlt|Hge].
        * rewrite nth_error_app1 in Hk by exact Hlt. apply Hc, Hk.
        * rewrite nth_error_app2 in Hk by exact Hge. destruct (k - length out0) as [|m'] eqn:Ek; [|destruct m'; discriminate]. injection Hk as <-. cbn [fst snd].
          assert (k = k0) by lia. subst k. destruct (k0 =? v).
          -- injection E1 as <- <-. eauto.
          -- inv_bind E1. destruct v0 as [sg ps]. injection E1 as <- <-. cbn [fst snd] in *. eauto 6.
      + split; [lia|exact B]. }
  destruct (G (num + 1) 0 [] 0 out pos E eq_refl) as [A B]; [intros [|k] c Hk; discriminate|]. split; [lia|exact B].
Qed.

Lemma possible_trap circ ops xs key : measures_all n ops -> measures circ = measures ops -> length xs = n ->
  (forall y, length y = n -> (final gmat n circ y <> f0 <-> y = xs)) -> possible gmat n n circ key <-> key = key_of xs.
Proof.
  intros Hm Em Hx Hf. assert (Hc : measures_all n circ) by (apply (measures_all_eq n ops); auto). split.
  - intros (y & Hy & Hn & ->). apply Hf in Hn; [|exact Hy]. subst y. rewrite reads_all by auto. reflexivity.
  - intros ->. exists xs. split; [exact Hx|]. split; [apply Hf; auto|]. rewrite reads_all by auto. reflexivity.
Qed.
Lemma key_zero xs : length xs = n -> shift_key (key_of xs) (rev xs) = repeat ch0 n.
Proof.
  intros Hx. rewrite shift_key_of by reflexivity. assert (E : xors xs xs = repeat false n).
  { apply bits_ext; [rewrite length_xors, repeat_length; lia|]. intros j _. rewrite nth_xors, nth_repeat by reflexivity. apply xorb_nilpotent. }
  rewrite E. unfold key_of. rewrite <- Hx. clear. induction (length xs) as [|m IH]; [reflexivity|]. cbn [repeat rev]. rewrite map_app, IH. cbn. symmetry. apply repeat_cons.
Qed.

Theorem traps_return_zeros g2 ops L rnd num v out pos : Forall (native n) ops -> measures_all n ops ->
  layer_parser tp g2 n ops = Ok L -> generate_circuits tp L rnd num v = Ok (out, pos) ->
  length out = S num /\ forall k circ postp, nth_error out k = Some (circ, postp) -> length postp = n /\
    (k <> v -> (exists key, possible gmat n n circ key) /\ forall key, possible gmat n n circ key -> is_key n key /\ shift_key key postp = repeat ch0 n) /\
    (k = v -> forall key, possible gmat n n circ key -> is_key n key /\ possible gmat n n ops (shift_key key postp)).
Proof.
  intros Hn Hm El Eg. destruct (parsed_good gmat r i Hstd tp n Htp g2 ops L Hn El) as (G & Em & Egt & Ha).
  destruct (generate_inv L rnd num v out pos Eg) as [A B]. split; [exact A|]. intros k circ postp Hk. specialize (B k _ Hk). cbn [fst snd] in B.
  destruct (Nat.eqb_spec k v) as [->|Hkv].
  - destruct B as (p & p' & E). destruct (pad_final gmat r i Hstd tp n Htp rnd p L ops circ postp p' G Em Ha E) as (xs & a & Hx & -> & Mc & Hk0 & Hf).
    split; [rewrite rev_length; exact Hx|]. split; [congruence|]. intros _ key (y & Hy & Hne & ->).
    assert (Hc : measures_all n circ) by (apply (measures_all_eq n ops); auto). rewrite reads_all by auto. split; [exists y; auto|].
    exists (xors y xs). assert (Lx : length (xors y xs) = n) by (rewrite length_xors; lia). split; [exact Lx|]. rewrite reads_all by auto. rewrite shift_key_of by lia. split; [|reflexivity].
    intros E0. destruct (Hf y Hy) as [b Eb]. apply Hne. rewrite Eb, E0. ring.
  - destruct B as (p & sg & p1 & p2 & E1 & E2). destruct (trap_outcome L ops rnd p sg p1 circ postp p2 G Em E1 E2) as (xs & Hx & -> & Mc & Hf).
    split; [rewrite rev_length; exact Hx|]. split; [|congruence]. intros _. pose proof (fun key => possible_trap circ ops xs key Hm Mc Hx Hf) as P. split.
    + exists (key_of xs). apply P. reflexivity.
    + intros key Hp. apply P in Hp. subst key. split; [exists xs; auto|]. apply key_zero, Hx.
Qed.

(** Generation never fails for cx and cz. *)
Lemma routine_two_total L rnd pos : good_layers n L -> ly_gate L = str "cx" \/ ly_gate L = str "cz" -> exists s, routine_two L rnd pos = Ok s.
Proof.
  intros [Gn Gs Gt Gl] Hg. unfold routine_two.
  assert (G : forall twos s, Forall (layer2 (ly_gate L) n) twos -> exists s', foldM (trap_layer L rnd) twos s = Ok s').
  { induction twos as [|l twos IH]; intros [[d c] p] Ht; cbn [foldM]; [eauto|]. apply Forall_cons_iff in Ht. destruct Ht as [Hl Ht].
    assert (K : exists x, foldM (trap_gate (ly_gate L) rnd) l (c, [], [], p) = Ok x).
    { apply layer2_ok in Hl. revert Hl. generalize (c, @nil cinstr, @nil nat, p). induction l as [|j l IHl]; intros [[[o q] u] p0] Hl; cbn [foldM]; [eauto|].
      apply Forall_cons_iff in Hl. destruct Hl as [(a & b & -> & _) Hl]. cbn [trap_gate instr_qubits gqubits index_e nth_error bind]. unfold trap_pair.
      destruct Hg as [Eg|Eg]; rewrite Eg in *.
      - change (eqb (str "cx") (str "cx")) with true. cbn [bind]. apply IHl, Hl.
      - change (eqb (str "cz") (str "cx")) with false. change (eqb (str "cz") (str "cz")) with true. cbn [bind]. apply IHl, Hl. }
    destruct K as [[[[o q] u] p0] K]. unfold trap_layer at 1. rewrite K. cbn [bind]. destruct (fold_left _ _ _) as [[a b] e]. cbn [bind]. apply IH, Ht. }
  destruct (G (ly_two L) ([], if rnd pos then map had (seq 0 (ly_n L)) else [], pos + 1) Gt) as [[[d c] p] ->]. cbn [bind]. eauto.
Qed.
Theorem generate_total g2 ops L rnd num v : Forall (native n) ops -> g2 = str "cx" \/ g2 = str "cz" ->
  layer_parser tp g2 n ops = Ok L -> exists o, generate_circuits tp L rnd num v = Ok o.
Proof.
  intros Hn Hg El. destruct (parsed_good gmat r i Hstd tp n Htp g2 ops L Hn El) as (G & Em & Egt & Ha). rewrite <- Egt in Hg. unfold generate_circuits.
  generalize (@nil (list cinstr * list bool), 0). induction (seq 0 (num + 1)) as [|k l IH]; intros [o p]; cbn [foldM]; [eauto|].
  unfold one_circuit at 1. destruct (k =? v).
  - cbn [bind fst snd]. destruct (qotp_fromlayers_total tp n rnd p L G Hg) as [[[c q] p'] ->]. cbn [bind]. apply IH.
  - destruct (routine_two_total L rnd p G Hg) as [[s p1] E]. rewrite E. cbn [bind fst snd].
    destruct (routine_two_action L rnd p s p1 G E) as [G' _]. destruct (qotp_fromlayers_total tp n rnd p1 (trap_layers L s) G' Hg) as [[[c q] p'] ->]. cbn [bind]. apply IH.
Qed.
End Trap.
