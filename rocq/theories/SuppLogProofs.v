(** Loggers whose file logging is disabled (C52). *)
From Coq Require Import List Lia.
From Verif Require Import Base PyStr ResultFacts LogModel LogSpec.
Import ListNotations.
Local Open Scope string_scope.
Local Open Scope list_scope.
Local Open Scope nat_scope.

Definition enables (o : op) : Prop := match o with OEnable _ => True | _ => False end.
Definition quiet (fs : fsys) (names : list pystr) (s : system) : Prop :=
  (forall n, l_enabled (get_lg s n) = false) /\ NoDup names /\ (forall n, l_warned (get_lg s n) = true <-> In n names) /\
  length names = length (s_warnings s) /\ s_fs s = fs /\ s_console s = [].
Lemma get_set s n l n' : get_lg (set_lg s n l) n' = if eqb n' n then l else get_lg s n'.
Proof. unfold get_lg, set_lg. cbn [s_loggers]. rewrite dget_dset. destruct (eqb n' n); reflexivity. Qed.
Lemma quiet_step cfg fs names s o : c_enabled cfg = false -> ~ enables o -> quiet fs names s -> exists s' names', step cfg s o = Ok s' /\ quiet fs names' s' /\
  forall n, In n names' <-> In n names \/ exists t kvs, o = OLog n t kvs.
Proof.
  intros Hc Ho (Q1 & Q2 & Q3 & Q4 & Q5 & Q6). destruct o as [m|m|m|m t kvs]; [| contradiction (Ho I) | |].
  - exists (do_get cfg s m), names. split; [reflexivity|]. split; [|intros n; split; [auto|intros [H|(? & ? & ?)]; [exact H|discriminate]]]. unfold quiet, do_get.
    assert (G : forall n, get_lg {| s_fs := s_fs s; s_loggers := s_loggers (set_lg s m {| l_enabled := l_enabled (get_lg s m) || c_enabled cfg; l_conf := c_exists cfg; l_warned := l_warned (get_lg s m); l_file := l_file (get_lg s m); l_stream := Some (s_next s); l_handlers := add_handler (Some (s_next s)) (l_handlers (get_lg s m)) |}); s_next := S (s_next s); s_console := s_console s; s_warnings := s_warnings s |} n = get_lg (set_lg s m {| l_enabled := l_enabled (get_lg s m) || c_enabled cfg; l_conf := c_exists cfg; l_warned := l_warned (get_lg s m); l_file := l_file (get_lg s m); l_stream := Some (s_next s); l_handlers := add_handler (Some (s_next s)) (l_handlers (get_lg s m)) |}) n) by reflexivity.
    split; [intros n; cbn [set_lg s_fs s_next s_console s_warnings]; rewrite G, get_set; destruct (eqb n m); [cbn [l_enabled]; rewrite Hc, Q1; reflexivity|apply Q1]|]. split; [exact Q2|].
    split; [|auto]. intros n. cbn [set_lg s_fs s_next s_console s_warnings]. rewrite G, get_set. destruct (eqb_spec n m) as [->|_]; [cbn [l_warned]; apply Q3|apply Q3].
  - exists (do_enable s m false), names. split; [reflexivity|]. split; [|intros n; split; [auto|intros [H|(? & ? & ?)]; [exact H|discriminate]]]. unfold quiet, do_enable.
    split; [intros n; rewrite get_set; destruct (eqb n m); [reflexivity|apply Q1]|]. split; [exact Q2|]. split; [|auto]. intros n. rewrite get_set. destruct (eqb_spec n m) as [->|_]; [cbn [l_warned]; apply Q3|apply Q3].
  - cbn [step]. unfold do_log. rewrite Q1. cbn [negb]. destruct (l_warned (get_lg s m)) eqn:W.
    + exists s, names. split; [reflexivity|]. split; [unfold quiet; auto 10|]. intros n. split; [auto|]. intros [H|(t' & k' & E)]; [exact H|]. injection E as <- _ _. apply Q3, W.
    + eexists _, (names ++ [m]). split; [reflexivity|]. split.
      * unfold quiet. cbn [s_fs s_console s_warnings set_lg]. assert (Hm : ~ In m names) by (rewrite <- Q3, W; discriminate).
        assert (G : forall l n, get_lg {| s_fs := s_fs s; s_loggers := dset (s_loggers s) m l; s_next := s_next s; s_console := s_console s; s_warnings := s_warnings s ++ [disabled_msg (get_lg s m)] |} n = if eqb n m then l else get_lg s n).
        { intros l n. unfold get_lg at 1. cbn [s_loggers]. rewrite dget_dset. destruct (eqb n m); reflexivity. }
        cbn [set_lg s_loggers s_next]. split; [intros n; rewrite G; destruct (eqb n m); [reflexivity|apply Q1]|]. split; [|split; [|split; [rewrite !app_length; cbn [length]; congruence|auto]]].
        -- clear - Q2 Hm. induction Q2 as [|a l Ha Hl IH]; cbn [app]; [repeat constructor; intros []|]. constructor; [rewrite in_app_iff; intros [H|[H|[]]]; [contradiction|subst; apply Hm; left; reflexivity]|]. apply IH. intros H. apply Hm. right. exact H.
        -- intros n. rewrite G, in_app_iff. destruct (eqb_spec n m) as [->|Hn]; [cbn [l_warned In]; tauto|]. rewrite Q3. cbn [In]. intuition congruence.
      * intros n. rewrite in_app_iff. cbn [In]. split; [intros [H|[<-|[]]]; [auto|right; eauto]|]. intros [H|(t' & k' & E)]; [auto|]. injection E as <- _ _. auto.
Qed.
Lemma quiet_run cfg fs ops : c_enabled cfg = false -> (forall o, In o ops -> ~ enables o) -> exists s names, run cfg (fresh fs) ops = Ok s /\ s_fs s = fs /\ s_console s = [] /\
  NoDup names /\ (forall n, In n names <-> exists t kvs, In (OLog n t kvs) ops) /\ length (s_warnings s) = length names.
Proof.
  intros Hc Ho. assert (G : forall s names, quiet fs names s -> exists s' names', run cfg s ops = Ok s' /\ quiet fs names' s' /\ forall n, In n names' <-> In n names \/ exists t kvs, In (OLog n t kvs) ops).
  { unfold run. induction ops as [|o ops IH]; intros s names Q; [exists s, names; split; [reflexivity|]; split; [exact Q|]; intros n; split; [auto|intros [H|(? & ? & [])]; exact H]|].
    destruct (quiet_step cfg fs names s o Hc (Ho o (or_introl eq_refl)) Q) as (s1 & names1 & E1 & Q1 & N1). destruct (IH (fun o' H => Ho o' (or_intror H)) s1 names1 Q1) as (s2 & names2 & E2 & Q2 & N2).
    exists s2, names2. cbn [foldM]. rewrite E1. cbn [bind]. split; [exact E2|]. split; [exact Q2|]. intros n. rewrite N2, N1. split.
    - intros [[H|(t & k & ->)]|(t & k & H)]; [auto|right; exists t, k; left; reflexivity|right; exists t, k; right; exact H].
    - intros [H|(t & k & [->|H])]; [auto|left; right; eauto|right; eauto]. }
  destruct (G (fresh fs) []) as (s & names & E & (_ & Q2 & _ & Q4 & Q5 & Q6) & N).
  { split; [reflexivity|]. split; [constructor|]. split; [intros n; split; [discriminate|intros []]|]. auto. }
  exists s, names. split; [exact E|]. split; [exact Q5|]. split; [exact Q6|]. split; [exact Q2|]. split; [|auto]. intros n. rewrite N. cbn [In]. tauto.
Qed.
Lemma one_warning cfg fs n t kvs logs : c_enabled cfg = false ->
  exists s, run cfg (fresh fs) (OGet n :: OLog n t kvs :: map (fun tk => OLog n (fst tk) (snd tk)) logs) = Ok s /\
    s_warnings s = [str "File logging is disabled" ++ if c_exists cfg then [] else str ": no config file"].
Proof.
  intros Hc. unfold run. cbn [foldM step bind]. unfold do_log at 1. 
  assert (G : forall s m l, get_lg (do_get cfg s m) m = l -> l_enabled l = (l_enabled (get_lg s m) || c_enabled cfg)%bool /\ l_conf l = c_exists cfg /\ l_warned l = l_warned (get_lg s m)).
  { intros s m l <-. assert (Z : get_lg (do_get cfg s m) m = {| l_enabled := l_enabled (get_lg s m) || c_enabled cfg; l_conf := c_exists cfg; l_warned := l_warned (get_lg s m); l_file := l_file (get_lg s m); l_stream := Some (s_next s); l_handlers := add_handler (Some (s_next s)) (l_handlers (get_lg s m)) |}).
    { etransitivity; [exact (get_set s m _ m)|]. rewrite eqb_refl. reflexivity. }
    rewrite Z. auto. }
  destruct (G (fresh fs) n _ eq_refl) as (G1 & G2 & G3). cbn in G3. rewrite Hc in G1. cbn in G1. rewrite G1, G3. cbn [negb bind]. unfold disabled_msg. rewrite G2.
  set (s1 := {| s_fs := _; s_loggers := _; s_next := _; s_console := _; s_warnings := _ |}).
  assert (W : forall s, l_enabled (get_lg s n) = false -> l_warned (get_lg s n) = true -> foldM (step cfg) (map (fun tk => OLog n (fst tk) (snd tk)) logs) s = Ok s).
  { intros s A B. induction logs as [|tk logs IH]; [reflexivity|]. cbn [map foldM step]. unfold do_log. rewrite A, B. cbn [negb bind]. exact IH. }
  exists s1. split; [|reflexivity]. apply W; unfold s1, get_lg; cbn [s_loggers set_lg]; rewrite dget_dset, eqb_refl; reflexivity || (cbn [l_enabled]; exact G1).
Qed.
