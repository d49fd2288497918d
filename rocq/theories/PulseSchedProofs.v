(** The calibration schedules (C70). *)
From Coq Require Import QArith Reals Lra Permutation Sorted.
From Coquelicot Require Import Coquelicot.
From Verif Require Import Base LinAlg PyStr ResultFacts EntSpec IQModel IQSpec IQDataProofs PulseModel PulseSpec PulseGateProofs.
Local Open Scope list_scope.
Local Open Scope nat_scope.

Lemma stop_none s on : (forall ti, In ti s -> existsb on (instr_channels (snd ti)) = false) -> stop_time s on = 0.
Proof. unfold stop_time. induction s as [|ti s IH]; intros H; [reflexivity|]. cbn [fold_right]. rewrite (H ti (or_introl eq_refl)). apply IH. intros ti' Hi. apply H. right. exact Hi. Qed.
Lemma stop_app s s' on : stop_time (s ++ s') on = Nat.max (stop_time s on) (stop_time s' on).
Proof. unfold stop_time. induction s as [|ti s IH]; [reflexivity|]. cbn [fold_right app]. destruct (existsb on (instr_channels (snd ti))); rewrite IH; lia. Qed.
Lemma shift_0 l : shift 0 l = l.
Proof. unfold shift. rewrite <- map_id. apply map_ext. intros [t i]. cbn [fst snd]. rewrite Nat.add_0_r. reflexivity. Qed.
(** The channels of a schedule. *)
Definition uses (s : timed) (ch : chan) : Prop := exists ti, In ti s /\ In ch (instr_channels (snd ti)).
Lemma append_apart s l : (forall ch, uses s ch -> uses l ch -> False) -> append s l = s ++ l.
Proof.
  intros H. unfold append. rewrite stop_none; [rewrite shift_0; reflexivity|]. intros ti Hi. apply Bool.not_true_iff_false. intros E. apply existsb_exists in E. destruct E as (ch & Hc & E). apply existsb_exists in E. destruct E as (tj & Hj & E). apply mem_In in E.
  apply (H ch); [exists ti|exists tj]; auto.
Qed.
Lemma uses_shift k l ch : uses (shift k l) ch -> uses l ch.
Proof. intros (ti & Hi & Hc). unfold shift in Hi. apply in_map_iff in Hi. destruct Hi as (tj & <- & Hj). exists tj. auto. Qed.
Lemma uses_app s s' ch : uses (s ++ s') ch -> uses s ch \/ uses s' ch.
Proof. intros (ti & Hi & Hc). apply in_app_or in Hi. destruct Hi as [Hi|Hi]; [left|right]; exists ti; auto. Qed.
Lemma uses_play t p c ch : uses [(t, Play p c)] ch -> ch = c.
Proof. intros (ti & [<-|[]] & [<-|[]]). reflexivity. Qed.

Lemma pulses_app l l' ch : pulses_of (l ++ l') ch = pulses_of l ch ++ pulses_of l' ch.
Proof. apply flat_map_app. Qed.
Lemma pulses_none l ch : ~ uses l ch -> pulses_of l ch = [].
Proof.
  intros H. induction l as [|[t i] l IH]; [reflexivity|]. unfold pulses_of. cbn [flat_map snd fst]. fold (pulses_of l ch). rewrite IH by (intros (ti & Hi & Hc); apply H; exists ti; split; [right; exact Hi|exact Hc]). rewrite app_nil_r.
  destruct i as [p c|x c|d cs]; [|reflexivity|reflexivity]. destruct (eqb_spec c ch) as [->|]; [|reflexivity]. exfalso. apply H. exists (t, Play p ch). split; [left; reflexivity|left; reflexivity].
Qed.
Lemma others_app chs l l' : others chs (l ++ l') = others chs l ++ others chs l'.
Proof. apply filter_app. Qed.
Lemma others_all chs l : (forall ch, uses l ch -> ~ In ch chs) -> others chs l = l.
Proof.
  intros H. unfold others. induction l as [|ti l IH]; [reflexivity|]. cbn [filter]. destruct (existsb (fun ch => mem ch chs) (instr_channels (snd ti))) eqn:E; cbn [negb].
  - exfalso. apply existsb_exists in E. destruct E as (ch & Hc & E). apply mem_In in E. apply (H ch); [|exact E]. exists ti. split; [left; reflexivity|exact Hc].
  - f_equal. apply IH. intros ch (tj & Hj & Hc). apply H. exists tj. split; [right; exact Hj|exact Hc].
Qed.
Lemma others_none chs l : (forall ti, In ti l -> exists ch, In ch chs /\ instr_channels (snd ti) = [ch]) -> others chs l = [].
Proof.
  intros H. unfold others. induction l as [|ti l IH]; [reflexivity|]. cbn [filter]. destruct (H ti (or_introl eq_refl)) as (ch & Hc & ->). cbn [existsb]. rewrite (proj2 (mem_In ch chs) Hc). cbn [orb negb]. apply IH. intros tj Hj. apply H. right. exact Hj.
Qed.

Lemma map_indexed {A} (d : nat -> A) qs : map (fun iq : nat * nat => d (snd iq)) (combine (seq 0 (length qs)) qs) = map d qs.
Proof. generalize 0. induction qs as [|q qs' IH]; intros k; [reflexivity|]. cbn [length seq combine map snd]. f_equal. apply IH. Qed.
Lemma nth_combine_seq qs i (q : nat) : nth_error qs i = Some q -> In (i, q) (combine (seq 0 (length qs)) qs).
Proof.
  assert (G : forall k, nth_error qs i = Some q -> In (k + i, q) (combine (seq k (length qs)) qs)); [|exact (G 0)]. revert i. induction qs as [|q0 qs' IH]; intros i k H; [destruct i; discriminate|].
  cbn [length seq combine]. destruct i as [|i]; cbn [nth_error] in H; [injection H as ->; left; f_equal; lia|]. right. replace (k + S i) with (S k + i) by lia. apply IH. exact H.
Qed.
Section Scheds.
Context (measure : list nat -> result timed) (drives : list chan) (d : nat -> chan) (qs : list nat) (m : timed).
Context (Hd : forall q, In q qs -> nth_error drives q = Some (d q)) (Hn : NoDup (map d qs)) (Hm : measure qs = Ok m).
Context (Hc : forall t i ch, In (t, i) m -> In ch (instr_channels i) -> ~ In ch (map d qs)).
Lemma uses_m ch : uses m ch -> ~ In ch (map d qs).
Proof using Hc. clear - Hc. intros ([t i] & Hi & Hch). exact (Hc t i ch Hi Hch). Qed.
Lemma rabi_ins p : foldM (fun s q => do ch <- index_e drives q; Ok (append s [(0, Play p ch)])) qs [] = Ok (map (fun q => (0, Play p (d q))) qs).
Proof using Hd Hn.
  clear Hm Hc. assert (G : forall qs' s0, incl qs' qs -> NoDup (map d qs') -> (forall q, In q qs' -> ~ uses s0 (d q)) -> foldM (fun s q => do ch <- index_e drives q; Ok (append s [(0, Play p ch)])) qs' s0 = Ok (s0 ++ map (fun q => (0, Play p (d q))) qs')).
  { induction qs' as [|q qs' IH]; intros s0 Hi N U; cbn [foldM map]; [rewrite app_nil_r; reflexivity|]. unfold index_e at 1. rewrite (Hd q (Hi q (or_introl eq_refl))). cbn [bind]. cbn [map] in N. inversion N as [|? ? Nq N']; subst.
    rewrite append_apart.
    - rewrite IH; [rewrite <- app_assoc; reflexivity|intros x Hx; apply Hi; right; exact Hx|exact N'|]. intros q' Hq' Hu. apply uses_app in Hu. destruct Hu as [Hu|Hu]; [exact (U q' (or_intror Hq') Hu)|]. apply uses_play in Hu. apply Nq. rewrite <- Hu. apply in_map. exact Hq'.
    - intros ch H1 H2. apply uses_play in H2. subst ch. exact (U q (or_introl eq_refl) H1). }
  apply (G qs []); [apply incl_refl|exact Hn|]. intros q _ (ti & [] & _).
Qed.
Lemma pulses_plays p qs' q : NoDup (map d qs') -> In q qs' -> pulses_of (map (fun q => (0, Play p (d q))) qs') (d q) = [(0, p)].
Proof using.
  clear. induction qs' as [|q0 qs' IH]; intros N Hi; [destruct Hi|]. cbn [map] in N. inversion N as [|? ? Nq N']; subst. unfold pulses_of. cbn [map flat_map snd fst]. fold (pulses_of (map (fun q => (0, Play p (d q))) qs') (d q)). destruct (eqb_spec (d q0) (d q)) as [E|E].
  - rewrite pulses_none; [reflexivity|]. intros (ti & Hi' & Hch). apply in_map_iff in Hi'. destruct Hi' as (q' & <- & Hq'). destruct Hch as [E'|[]]. apply Nq. rewrite E, <- E'. apply in_map. exact Hq'.
  - cbn [app]. apply IH; [exact N'|]. destruct Hi as [->|Hi]; [congruence|exact Hi].
Qed.
Lemma rabi_sched_ok w sg k a : exists s, rabi_sched measure drives qs w sg k a = Ok s /\ s_name s = sched_name "rabisched_" k /\
  (forall q, In q qs -> pulses_of (s_ins s) (d q) = [(0, {| p_duration := w; p_amp := a; p_sigma := sg; p_beta := None; p_label := str "rabi_pulse_" ++ dec k |})]) /\ others (map d qs) (s_ins s) = shift w m.
Proof using Hd Hn Hm Hc.
  unfold rabi_sched. rewrite rabi_ins, Hm. cbn [bind]. eexists. split; [reflexivity|]. cbn [s_name s_ins]. split; [reflexivity|].
  set (p := {| p_duration := w; p_amp := a; p_sigma := sg; p_beta := None; p_label := str "rabi_pulse_" ++ dec k |}).
  assert (NU : forall ch, uses (shift w m) ch -> ~ In ch (map d qs)) by (intros ch Hu; exact (uses_m ch (uses_shift _ _ _ Hu))).
  assert (PU : forall ch, uses (map (fun q => (0, Play p (d q))) qs) ch -> In ch (map d qs)) by (intros ch (ti & Hi & Hch); apply in_map_iff in Hi; destruct Hi as (q & <- & Hq); destruct Hch as [<-|[]]; apply in_map; exact Hq).
  rewrite append_apart by (intros ch H1 H2; exact (NU ch H2 (PU ch H1))). split.
  - intros q Hq. rewrite pulses_app, (pulses_plays p qs q Hn Hq), pulses_none; [reflexivity|]. intros Hu. apply (NU _ Hu). apply in_map. exact Hq.
  - rewrite others_app, others_none, others_all; [reflexivity|exact NU|]. intros ti Hi. apply in_map_iff in Hi. destruct Hi as (q & <- & Hq). exists (d q). split; [apply in_map; exact Hq|reflexivity].
Qed.
(** DRAG. *)
Lemma stop_play t p c : stop_time [(t, Play p c)] (fun ch => existsb (fun ti => mem ch (instr_channels (snd ti))) [(0, Play p c)]) = t + p_duration p.
Proof using. clear. unfold stop_time. cbn [fold_right snd fst instr_channels existsb]. unfold mem. cbn [existsb]. rewrite eqb_refl. cbn. lia. Qed.
Lemma append_after s t p p' c : ~ uses s c -> append (s ++ [(t, Play p c)]) [(0, Play p' c)] = s ++ [(t, Play p c); (t + p_duration p, Play p' c)].
Proof using.
  clear. intros H. unfold append. rewrite stop_app, stop_none.
  - unfold stop_time. cbn [fold_right snd fst instr_channels existsb]. unfold mem. cbn [existsb]. rewrite eqb_refl. cbn [orb instr_duration shift map fst snd]. rewrite <- app_assoc. cbn [app]. do 3 f_equal. f_equal. lia.
  - intros ti Hi. apply Bool.not_true_iff_false. intros E. apply existsb_exists in E. destruct E as (ch & Hch & E). cbn [existsb snd instr_channels] in E. rewrite Bool.orb_false_r in E. apply mem_In in E. destruct E as [<-|[]]. apply H. exists ti. auto.
Qed.
Definition drag_pair (w : nat) (sg beta : R) (k : nat) (amps : list R) (iq : nat * nat) : timed :=
  [(0, Play (drag_pulse w (nth (fst iq) amps 0%R) sg beta k (snd iq)) (d (snd iq))); (w, Play (drag_pulse w (- nth (fst iq) amps 0)%R sg beta k (snd iq)) (d (snd iq)))].
Lemma drag_ins w sg beta k amps : length amps = length qs ->
  foldM (fun s iq => do amp <- index_e amps (fst iq); do ch <- index_e drives (snd iq); Ok (append (append s [(0, Play (drag_pulse w amp sg beta k (snd iq)) ch)]) [(0, Play (drag_pulse w (- amp)%R sg beta k (snd iq)) ch)]))
    (combine (seq 0 (length qs)) qs) [] = Ok (flat_map (drag_pair w sg beta k amps) (combine (seq 0 (length qs)) qs)).
Proof using Hd Hn.
  clear Hm Hc m measure. intros Hl.
  assert (G : forall L s0, (forall iq, In iq L -> fst iq < length amps /\ In (snd iq) qs) -> NoDup (map (fun iq => d (snd iq)) L) -> (forall iq, In iq L -> ~ uses s0 (d (snd iq))) ->
    foldM (fun s iq => do amp <- index_e amps (fst iq); do ch <- index_e drives (snd iq); Ok (append (append s [(0, Play (drag_pulse w amp sg beta k (snd iq)) ch)]) [(0, Play (drag_pulse w (- amp)%R sg beta k (snd iq)) ch)])) L s0 = Ok (s0 ++ flat_map (drag_pair w sg beta k amps) L)).
  { induction L as [|iq L IH]; intros s0 HL N U; cbn [foldM flat_map]; [rewrite app_nil_r; reflexivity|]. destruct (HL iq (or_introl eq_refl)) as [H1 H2]. unfold index_e at 1 2. rewrite (nth_error_nth' amps 0%R H1), (Hd _ H2). cbn [bind]. cbn [map] in N. inversion N as [|? ? Nq N']; subst.
    rewrite (append_apart s0); [|intros ch K1 K2; apply uses_play in K2; subst ch; exact (U iq (or_introl eq_refl) K1)]. rewrite append_after by (exact (U iq (or_introl eq_refl))). cbn [drag_pulse p_duration]. rewrite Nat.add_0_l.
    change [(0, Play (drag_pulse w (nth (fst iq) amps 0%R) sg beta k (snd iq)) (d (snd iq))); (w, Play (drag_pulse w (- nth (fst iq) amps 0)%R sg beta k (snd iq)) (d (snd iq)))] with (drag_pair w sg beta k amps iq). rewrite IH.
    - rewrite <- app_assoc. reflexivity.
    - intros x Hx. apply HL. right. exact Hx.
    - exact N'.
    - intros iq' Hi' Hu. apply uses_app in Hu. destruct Hu as [Hu|Hu]; [exact (U iq' (or_intror Hi') Hu)|]. destruct Hu as (ti & Ht & Hch). assert (E : d (snd iq') = d (snd iq)) by (destruct Ht as [<-|[<-|[]]]; destruct Hch as [E|[]]; symmetry; exact E).
      apply Nq. rewrite <- E. apply (in_map (fun iq => d (snd iq))). exact Hi'. }
  pose proof (map_indexed d qs) as E.
  apply (G _ []); [|rewrite E; exact Hn|intros iq _ (ti & [] & _)]. intros [i q] Hi. cbn [fst snd]. split; [apply in_combine_l in Hi; apply in_seq in Hi; lia|apply in_combine_r in Hi; exact Hi].
Qed.
Lemma drag_sched_ok w sg k amps beta : length amps = length qs -> exists s, drag_sched measure drives qs amps w sg k beta = Ok s /\ s_name s = sched_name "dragsched_" k /\
  (forall i q, nth_error qs i = Some q -> pulses_of (s_ins s) (d q) = [(0, drag_pulse w (nth i amps 0%R) sg beta k q); (w, drag_pulse w (- nth i amps 0)%R sg beta k q)]) /\ others (map d qs) (s_ins s) = shift (2 * w) m.
Proof using Hd Hn Hm Hc.
  intros Hl. unfold drag_sched. rewrite drag_ins, Hm by exact Hl. cbn [bind]. eexists. split; [reflexivity|]. cbn [s_name s_ins]. split; [reflexivity|].
  assert (NU : forall ch, uses (shift (2 * w) m) ch -> ~ In ch (map d qs)) by (intros ch Hu; exact (uses_m ch (uses_shift _ _ _ Hu))).
  assert (PU : forall ch, uses (flat_map (drag_pair w sg beta k amps) (combine (seq 0 (length qs)) qs)) ch -> In ch (map d qs)).
  { intros ch (ti & Hi & Hch). apply in_flat_map in Hi. destruct Hi as ([i q] & Hq & Hi). apply in_combine_r in Hq. destruct Hi as [<-|[<-|[]]]; destruct Hch as [<-|[]]; apply in_map; exact Hq. }
  rewrite append_apart by (intros ch H1 H2; exact (NU ch H2 (PU ch H1))). split.
  - intros i q Hq. rewrite pulses_app, (pulses_none (shift (2 * w) m)) by (intros Hu; apply (NU _ Hu); apply in_map, (nth_error_In qs i), Hq). rewrite app_nil_r. apply nth_combine_seq in Hq.
    pose proof (map_indexed d qs) as E.
    assert (N : NoDup (map (fun iq : nat * nat => d (snd iq)) (combine (seq 0 (length qs)) qs))) by (rewrite E; exact Hn). clear - Hq N. induction (combine (seq 0 (length qs)) qs) as [|iq L IH]; [destruct Hq|]. cbn [map] in N. inversion N as [|? ? Nq N']; subst.
    cbn [flat_map]. rewrite pulses_app. destruct Hq as [->|Hq].
    + rewrite (pulses_none (flat_map _ L)).
      * unfold drag_pair, pulses_of. cbn [flat_map snd fst app]. rewrite eqb_refl. reflexivity.
      * intros (ti & Hi & Hch). apply in_flat_map in Hi. destruct Hi as (iq' & Hq' & Hi). apply Nq. cbn [snd]. assert (E : d q = d (snd iq')) by (destruct Hi as [<-|[<-|[]]]; destruct Hch as [E|[]]; symmetry; exact E). rewrite E. apply (in_map (fun iq => d (snd iq))). exact Hq'.
    + rewrite (pulses_none (drag_pair w sg beta k amps iq)); [cbn [app]; apply IH; assumption|]. intros (ti & Hi & Hch). apply Nq. assert (E : d (snd iq) = d q) by (destruct Hi as [<-|[<-|[]]]; destruct Hch as [E|[]]; exact E). rewrite E. apply (in_map (fun iq => d (snd iq)) L (i, q)). exact Hq.
  - rewrite others_app, others_none, others_all; [reflexivity|exact NU|]. intros ti Hi. apply in_flat_map in Hi. destruct Hi as ([i q] & Hq & Hi). apply in_combine_r in Hq. exists (d q). split; [apply in_map; exact Hq|]. destruct Hi as [<-|[<-|[]]]; reflexivity.
Qed.
End Scheds.
(** Lists of schedules. *)
Lemma mapM_scheds {A B} (f : nat * A -> result B) (P : nat -> A -> B -> Prop) l : (forall k a, nth_error l k = Some a -> exists b, f (k, a) = Ok b /\ P k a b) ->
  exists bs, mapM f (combine (seq 0 (length l)) l) = Ok bs /\ length bs = length l /\ forall k a, nth_error l k = Some a -> exists b, nth_error bs k = Some b /\ P k a b.
Proof.
  assert (G : forall k0, (forall k a, nth_error l k = Some a -> exists b, f (k0 + k, a) = Ok b /\ P (k0 + k) a b) -> exists bs, mapM f (combine (seq k0 (length l)) l) = Ok bs /\ length bs = length l /\ forall k a, nth_error l k = Some a -> exists b, nth_error bs k = Some b /\ P (k0 + k) a b).
  { induction l as [|a l IH]; intros k0 H; [exists []; cbn; split; [reflexivity|]; split; [reflexivity|]; intros [|k] x E; discriminate|].
    destruct (H 0 a eq_refl) as (b & E & Pb). rewrite Nat.add_0_r in E, Pb. destruct (IH (S k0)) as (bs & E' & L & K); [intros k x Hx; replace (S k0 + k) with (k0 + S k) by lia; apply H; exact Hx|].
    exists (b :: bs). cbn [length seq combine mapM]. rewrite E. cbn [bind]. rewrite E'. cbn [bind]. split; [reflexivity|]. split; [cbn; lia|]. intros [|k] x Hx; cbn [nth_error] in *.
    - injection Hx as <-. exists b. rewrite Nat.add_0_r. auto.
    - destruct (K k x Hx) as (b' & H1 & H2). exists b'. replace (k0 + S k) with (S k0 + k) by lia. auto. }
  intros H. exact (G 0 H).
Qed.
