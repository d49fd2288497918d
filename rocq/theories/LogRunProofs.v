(** Histories: the log files hold the logged entries. *)
From Verif Require Import Base PyStr ResultFacts LogModel LogSpec LogTimeProofs LogReadProofs LogFileProofs.
Local Open Scope string_scope.
Local Open Scope list_scope.
Local Open Scope nat_scope.

Definition rotating (cfg : config) : bool := (0 <? c_max cfg) && (0 <? c_rot cfg).
Definition dated (e : entry) : Prop := valid (fst e) /\ 1000 <= d_year (fst e).

Lemma row_line t kvs : valid t -> 1000 <= d_year t -> log_row t kvs ++ [lf] = line_of (t, kvs).
Proof.
  intros V H. unfold log_row, line_of, asctime. cbn [fst snd]. rewrite date_text_ok, time_text_ok by assumption. rewrite <- !app_assoc. cbn [app]. rewrite <- ?app_assoc. unfold message. reflexivity.
Qed.
Lemma get_set s n l m : get_lg (set_lg s n l) m = if eqb m n then l else get_lg s m.
Proof. unfold get_lg, set_lg. cbn [s_loggers]. rewrite dget_dset. destruct (eqb m n); reflexivity. Qed.
Lemma In_add_handler h l x : In x (add_handler h l) <-> In x l \/ x = h.
Proof.
  unfold add_handler. destruct (mem h l) eqn:E; [apply mem_In in E; split; [tauto|intros [H| ->]; assumption]|].
  rewrite in_app_iff. cbn [In]. intuition congruence.
Qed.
Lemma In_remove_handler h l x : In x (remove_handler h l) -> In x l.
Proof. unfold remove_handler. rewrite filter_In. tauto. Qed.

Section Run.
Variable cfg : config.
Variable n0 : pystr.

Record inv (s : system) (gens : list (nat * list entry)) (hist : list entry) (got on : list pystr) : Prop := {
  i_good : good (c_file cfg) (s_fs s) gens;
  i_hist : exists dropped, hist = dropped ++ concat (rev (map snd gens)) /\ (dropped = [] \/ rotating cfg = true /\ length gens = S (c_rot cfg));
  i_len : length gens <= if rotating cfg then S (c_rot cfg) else 1;
  i_size : rotating cfg = true -> Forall (fun g => length (file_of (snd g)) < c_max cfg \/ length (snd g) <= 1) gens;
  i_file : forall n i, l_file (get_lg s n) = Some i -> (exists es rest, gens = (i, es) :: rest) /\ (rotating cfg = true -> n = n0);
  i_none : forall n, ~ In None (l_handlers (get_lg s n));
  i_stream : forall n, In n got -> l_stream (get_lg s n) <> None;
  i_on : forall n, l_enabled (get_lg s n) = mem n on }.

Lemma concat_snoc_rev (l : list (nat * list entry)) g : concat (rev (map snd (l ++ [g]))) = snd g ++ concat (rev (map snd l)).
Proof. rewrite map_app, rev_app_distr. reflexivity. Qed.
Lemma concat_rev_cons (l : list (nat * list entry)) i es : concat (rev (map snd ((i, es) :: l))) = concat (rev (map snd l)) ++ es.
Proof. cbn [map rev snd]. rewrite concat_app. cbn [concat]. rewrite app_nil_r. reflexivity. Qed.

(** One row through the handler. *)
Lemma emit_ok fs i es rest e hist :
  dated e -> good (c_file cfg) fs ((i, es) :: rest) ->
  (exists dropped, hist = dropped ++ concat (rev (map snd ((i, es) :: rest))) /\ (dropped = [] \/ rotating cfg = true /\ S (length rest) = S (c_rot cfg))) ->
  S (length rest) <= (if rotating cfg then S (c_rot cfg) else 1) ->
  (rotating cfg = true -> Forall (fun g => length (file_of (snd g)) < c_max cfg \/ length (snd g) <= 1) ((i, es) :: rest)) ->
  exists fs' i' es' rest', emit cfg fs i (log_row (fst e) (snd e)) = (fs', i') /\ good (c_file cfg) fs' ((i', es') :: rest') /\
    (exists dropped, hist ++ [e] = dropped ++ concat (rev (map snd ((i', es') :: rest'))) /\ (dropped = [] \/ rotating cfg = true /\ S (length rest') = S (c_rot cfg))) /\
    S (length rest') <= (if rotating cfg then S (c_rot cfg) else 1) /\
    (rotating cfg = true -> Forall (fun g => length (file_of (snd g)) < c_max cfg \/ length (snd g) <= 1) ((i', es') :: rest')) /\
    (rotating cfg = false -> i' = i).
Proof.
  intros [V Hy] G (dropped & Eh & Hd) Hlen Hsz. unfold emit. destruct e as [t kvs]. cbn [fst snd] in *. rewrite row_line by assumption.
  pose proof (g_content _ _ _ G) as Hc. inversion Hc as [|? ? Hc1 _]; subst. cbn [fst snd] in Hc1.
  destruct ((0 <? c_max cfg) && (c_max cfg <=? length (f_content fs i) + length (line_of (t, kvs)))) eqn:Er.
  - apply andb_true_iff in Er. destruct Er as [Em _]. destruct (Nat.eq_dec (c_rot cfg) 0) as [E0|E0].
    + unfold rollover. rewrite E0, Nat.eqb_refl. destruct (open_ok _ _ _ G) as (fs' & i' & -> & -> & ->). cbn [fst].
      exists (f_write fs i (line_of (t, kvs))), i, (es ++ [(t, kvs)]), rest. split; [reflexivity|]. split; [apply write_ok, G|].
      assert (Hr : rotating cfg = false) by (unfold rotating; rewrite E0; apply andb_false_r). rewrite Hr in *.
      split; [|split; [exact Hlen|split; [discriminate|reflexivity]]]. exists dropped. split; [|destruct Hd as [H|[H _]]; [left; exact H|discriminate]].
      rewrite !concat_rev_cons, <- !app_assoc. reflexivity.
    + assert (Hr : rotating cfg = true) by (unfold rotating; rewrite Em; apply Nat.ltb_lt; lia). rewrite Hr in *.
      destruct (rollover_ok (c_file cfg) (c_rot cfg) fs _ ltac:(lia) G ltac:(cbn [length]; lia)) as (fs' & i' & -> & G'). 
      exists (f_write fs' i' (line_of (t, kvs))), i', [(t, kvs)], (firstn (c_rot cfg) ((i, es) :: rest)). split; [reflexivity|].
      split; [apply (write_ok _ _ _ []), G'|]. rewrite firstn_length. cbn [length].
      split; [|split; [lia|split; [|discriminate]]].
      * destruct (Nat.le_gt_cases (S (length rest)) (c_rot cfg)) as [Hs|Hs].
        -- rewrite firstn_all2 by (cbn [length]; lia). exists dropped. split; [rewrite (concat_rev_cons _ i'), app_assoc; reflexivity|].
           destruct Hd as [H|[_ H]]; [left; exact H|lia].
        -- assert (El : length rest = c_rot cfg) by lia. destruct (exists_last (l := (i, es) :: rest) ltac:(discriminate)) as (l & g & Eg).
           assert (Ll : length l = c_rot cfg) by (apply (f_equal (@length _)) in Eg; rewrite app_length in Eg; cbn [length] in Eg; lia).
           rewrite Eg. rewrite firstn_app, <- Ll, firstn_all, Nat.sub_diag, app_nil_r. exists (dropped ++ snd g). split; [|right; split; [reflexivity|]].
           ++ rewrite (concat_rev_cons _ i'), concat_snoc_rev, <- !app_assoc. reflexivity.
           ++ rewrite Nat.min_l; lia.
      * intros _. constructor; [right; cbn; lia|]. apply Forall_forall. intros g Hg. specialize (Hsz eq_refl). rewrite Forall_forall in Hsz. apply Hsz, (firstn_In (c_rot cfg)), Hg.
  - exists (f_write fs i (line_of (t, kvs))), i, (es ++ [(t, kvs)]), rest. split; [reflexivity|]. split; [apply write_ok, G|].
    split; [|split; [exact Hlen|split; [|reflexivity]]].
    + exists dropped. split; [|exact Hd]. rewrite !concat_rev_cons, <- !app_assoc. reflexivity.
    + intros Hr. specialize (Hsz Hr). inversion Hsz as [|? ? _ Hs2]; subst. constructor; [|exact Hs2]. left. cbn [snd]. unfold rotating in Hr. apply andb_true_iff in Hr. destruct Hr as [Hm _]. rewrite Hm in Er. cbn [andb] in Er.
      apply Nat.leb_gt in Er. unfold file_of in *. rewrite map_app, concat_app, app_length. cbn [map concat]. rewrite app_nil_r. rewrite <- Hc1. exact Er.
Qed.

Lemma inv_same s s' gens hist got on : inv s gens hist got on -> s_fs s' = s_fs s -> (forall n, l_file (get_lg s' n) = l_file (get_lg s n)) ->
  forall got' on', (forall n, ~ In None (l_handlers (get_lg s' n))) -> (forall n, In n got' -> l_stream (get_lg s' n) <> None) -> (forall n, l_enabled (get_lg s' n) = mem n on') ->
  inv s' gens hist got' on'.
Proof.
  intros [G H L Z F N T O] Ef El got' on' N' T' O'. constructor; try assumption; [rewrite Ef; exact G|]. intros n i E. apply F. rewrite <- El. exact E.
Qed.
Lemma get_ok s n gens hist got on : inv s gens hist got on -> inv (do_get cfg s n) gens hist (n :: got) (if c_enabled cfg then n :: on else on).
Proof.
  intros I. pose proof I as [G H L Z F N T O]. eapply inv_same; [exact I|reflexivity| | | |].
  - intros m. change (get_lg (do_get cfg s n) m) with (get_lg (set_lg s n {| l_enabled := l_enabled (get_lg s n) || c_enabled cfg; l_conf := c_exists cfg; l_warned := l_warned (get_lg s n); l_file := l_file (get_lg s n); l_stream := Some (s_next s); l_handlers := add_handler (Some (s_next s)) (l_handlers (get_lg s n)) |}) m).
    rewrite get_set. destruct (eqb_spec m n) as [->|]; reflexivity.
  - intros m. change (get_lg (do_get cfg s n) m) with (get_lg (set_lg s n {| l_enabled := l_enabled (get_lg s n) || c_enabled cfg; l_conf := c_exists cfg; l_warned := l_warned (get_lg s n); l_file := l_file (get_lg s n); l_stream := Some (s_next s); l_handlers := add_handler (Some (s_next s)) (l_handlers (get_lg s n)) |}) m).
    rewrite get_set. destruct (eqb_spec m n) as [->|]; [|apply N]. cbn [l_handlers]. rewrite In_add_handler. intros [HI|E]; [exact (N n HI)|discriminate].
  - intros m Hm. change (get_lg (do_get cfg s n) m) with (get_lg (set_lg s n {| l_enabled := l_enabled (get_lg s n) || c_enabled cfg; l_conf := c_exists cfg; l_warned := l_warned (get_lg s n); l_file := l_file (get_lg s n); l_stream := Some (s_next s); l_handlers := add_handler (Some (s_next s)) (l_handlers (get_lg s n)) |}) m).
    rewrite get_set. destruct (eqb_spec m n) as [->|Hne]; [discriminate|]. apply T. destruct Hm as [->|Hm]; [congruence|exact Hm].
  - intros m. change (get_lg (do_get cfg s n) m) with (get_lg (set_lg s n {| l_enabled := l_enabled (get_lg s n) || c_enabled cfg; l_conf := c_exists cfg; l_warned := l_warned (get_lg s n); l_file := l_file (get_lg s n); l_stream := Some (s_next s); l_handlers := add_handler (Some (s_next s)) (l_handlers (get_lg s n)) |}) m).
    rewrite get_set. destruct (eqb_spec m n) as [->|Hne]; cbn [l_enabled].
    + rewrite O. destruct (c_enabled cfg); [|apply orb_false_r]. rewrite orb_true_r. symmetry. apply mem_In. left. reflexivity.
    + rewrite O. destruct (c_enabled cfg); [|reflexivity]. unfold mem. cbn [existsb]. rewrite (proj2 (eqb_neq m n) Hne). reflexivity.
Qed.
Lemma mem_filter_ne (n m : pystr) on : mem m (filter (fun k => negb (eqb k n)) on) = negb (eqb m n) && mem m on.
Proof.
  induction on as [|a on IH]; [symmetry; apply andb_false_r|]. cbn [filter]. destruct (eqb_spec a n) as [->|Ha]; cbn [negb].
  - rewrite IH. unfold mem at 2. cbn [existsb]. destruct (eqb_spec m n); cbn [negb andb orb]; [reflexivity|]. reflexivity.
  - unfold mem in *. cbn [existsb]. rewrite IH. destruct (eqb_spec m a) as [->|]; cbn [orb]; [|reflexivity]. rewrite (proj2 (eqb_neq a n) Ha). reflexivity.
Qed.
Lemma enable_ok s n b gens hist got on : In n got -> inv s gens hist got on ->
  inv (do_enable s n b) gens hist got (if b then n :: on else filter (fun m => negb (eqb m n)) on).
Proof.
  intros Hg I. pose proof I as [G H L Z F N T O]. unfold do_enable. eapply inv_same; [exact I|reflexivity| | | |].
  - intros m. rewrite get_set. destruct (eqb_spec m n) as [->|Hne]; reflexivity.
  - intros m. rewrite get_set. destruct (eqb_spec m n) as [->|Hne]; apply N.
  - intros m Hm. rewrite get_set. destruct (eqb_spec m n) as [->|Hne]; apply T, Hm.
  - intros m. rewrite get_set. destruct (eqb_spec m n) as [->|Hne]; cbn [l_enabled]; [|rewrite O]; (destruct b; [unfold mem; cbn [existsb]|rewrite mem_filter_ne]); rewrite ?eqb_refl, ?(proj2 (eqb_neq m n) Hne); reflexivity.
Qed.

Lemma log_ok s n t kvs gens hist got on : In n got -> (rotating cfg = true -> n = n0) -> (mem n on = true -> dated (t, kvs)) -> inv s gens hist got on ->
  exists s' gens', do_log cfg s n t kvs = Ok s' /\ inv s' gens' (hist ++ if mem n on then [(t, kvs)] else []) got on.
Proof.
  intros Hg Hn Hd I. pose proof I as [G H L Z F N T O]. unfold do_log. rewrite O. destruct (mem n on) eqn:En; cbn [negb].
  - specialize (Hd eq_refl).
    assert (A : exists fs1 i1 es1 rest1, match l_file (get_lg s n) with Some i => (s_fs s, i) | None => f_open (s_fs s) (c_file cfg) end = (fs1, i1) /\ good (c_file cfg) fs1 ((i1, es1) :: rest1) /\
       (exists dropped, hist = dropped ++ concat (rev (map snd ((i1, es1) :: rest1))) /\ (dropped = [] \/ rotating cfg = true /\ S (length rest1) = S (c_rot cfg))) /\
       S (length rest1) <= (if rotating cfg then S (c_rot cfg) else 1) /\
       (rotating cfg = true -> Forall (fun g => length (file_of (snd g)) < c_max cfg \/ length (snd g) <= 1) ((i1, es1) :: rest1)) /\
       (gens = (i1, es1) :: rest1 \/ gens = [])).
    { destruct (l_file (get_lg s n)) as [i|] eqn:El.
      - destruct (F n i El) as [(es & rest & ->) _]. exists (s_fs s), i, es, rest. split; [reflexivity|]. split; [exact G|]. split; [exact H|]. split; [exact L|]. split; [exact Z|]. left. reflexivity.
      - destruct (open_ok _ _ _ G) as (fs' & i & -> & Hm). destruct gens as [|[i' es] rest].
        + exists fs', i, [], []. split; [reflexivity|]. split; [exact Hm|]. split; [|split; [destruct (rotating cfg); cbn; lia|split; [|right; reflexivity]]].
          * destruct H as (dr & E & [Hd0|[Hr Hl0]]); exists dr; (split; [exact E|]); [left; exact Hd0|]. cbn in Hl0. lia.
          * intros Hr. constructor; [right; cbn; lia|constructor].
        + destruct Hm as [-> ->]. exists (s_fs s), i', es, rest. split; [reflexivity|]. split; [exact G|]. split; [exact H|]. split; [exact L|]. split; [exact Z|]. left. reflexivity. }
    destruct A as (fs1 & i1 & es1 & rest1 & -> & G1 & H1 & L1 & Z1 & Eg).
    assert (Hmem : mem None (remove_handler (l_stream (get_lg s n)) (l_handlers (get_lg s n))) = false).
    { apply mem_not_In. intros HI. apply In_remove_handler in HI. exact (N n HI). }
    rewrite Hmem. destruct (emit_ok fs1 i1 es1 rest1 (t, kvs) hist Hd G1 H1 L1 Z1) as (fs2 & i2 & es2 & rest2 & E2 & G2 & H2 & L2 & Z2 & Q2). cbn [fst snd] in E2. rewrite E2.
    eexists _, ((i2, es2) :: rest2). split; [reflexivity|].
    assert (Gl : forall m, get_lg {| s_fs := fs2; s_loggers := s_loggers (set_lg s n {| l_enabled := true; l_conf := l_conf (get_lg s n); l_warned := l_warned (get_lg s n); l_file := Some i2; l_stream := l_stream (get_lg s n); l_handlers := add_handler (l_stream (get_lg s n)) (remove_handler (l_stream (get_lg s n)) (l_handlers (get_lg s n))) |}); s_next := s_next s; s_console := s_console s ++ flat_map (fun h => match h with Some h => [(h, message kvs)] | None => [] end) (remove_handler (l_stream (get_lg s n)) (l_handlers (get_lg s n))); s_warnings := s_warnings s |} m
       = if eqb m n then {| l_enabled := true; l_conf := l_conf (get_lg s n); l_warned := l_warned (get_lg s n); l_file := Some i2; l_stream := l_stream (get_lg s n); l_handlers := add_handler (l_stream (get_lg s n)) (remove_handler (l_stream (get_lg s n)) (l_handlers (get_lg s n))) |} else get_lg s m).
    { intros m. exact (get_set s n _ m). }
    constructor.
    + exact G2.
    + exact H2.
    + exact L2.
    + exact Z2.
    + intros m i. cbn [s_loggers s_next s_console s_warnings set_lg] in Gl |- *. rewrite Gl. destruct (eqb_spec m n) as [->|Hne]; cbn [l_file].
      * intros E. injection E as <-. split; [eexists _, _; reflexivity|exact Hn].
      * intros E. destruct (F m i E) as [(es & rest & Eg') Hr]. split; [|exact Hr]. destruct (rotating cfg) eqn:Er.
        -- exfalso. apply Hne. rewrite (Hr eq_refl), (Hn eq_refl). reflexivity.
        -- rewrite (Q2 eq_refl). destruct Eg as [Eg|Eg]; rewrite Eg in Eg'; [|discriminate]. injection Eg' as <- <- <-. exists es2, rest2. reflexivity.
    + intros m. cbn [s_loggers s_next s_console s_warnings set_lg] in Gl |- *. rewrite Gl. destruct (eqb_spec m n) as [->|Hne]; [|apply N]. cbn [l_handlers]. rewrite In_add_handler. intros [HI|E]; [apply In_remove_handler in HI; exact (N n HI)|].
      exact (T n Hg (eq_sym E)).
    + intros m Hm. cbn [s_loggers s_next s_console s_warnings set_lg] in Gl |- *. rewrite Gl. destruct (eqb_spec m n) as [->|Hne]; [apply T, Hg|apply T, Hm].
    + intros m. cbn [s_loggers s_next s_console s_warnings set_lg] in Gl |- *. rewrite Gl. destruct (eqb_spec m n) as [->|Hne]; [symmetry; exact En|apply O].
  - rewrite app_nil_r. destruct (l_warned (get_lg s n)); [exists s, gens; split; [reflexivity|exact I]|]. eexists _, gens. split; [reflexivity|].
    assert (Gl : forall m, get_lg (set_lg s n {| l_enabled := false; l_conf := l_conf (get_lg s n); l_warned := true; l_file := l_file (get_lg s n); l_stream := l_stream (get_lg s n); l_handlers := l_handlers (get_lg s n) |}) m =
      if eqb m n then {| l_enabled := false; l_conf := l_conf (get_lg s n); l_warned := true; l_file := l_file (get_lg s n); l_stream := l_stream (get_lg s n); l_handlers := l_handlers (get_lg s n) |} else get_lg s m) by (intros m; apply get_set).
    eapply inv_same; [exact I|reflexivity| | | |].
    + intros m. etransitivity; [apply (f_equal l_file); exact (Gl m)|]. destruct (eqb_spec m n) as [->|Hne]; reflexivity.
    + intros m HI. assert (HI' : In None (l_handlers (get_lg s m))); [|exact (N m HI')]. specialize (Gl m). apply (f_equal l_handlers) in Gl.
      match type of HI with In None ?x => replace x with (l_handlers (get_lg s m)) in HI; [exact HI|] end. symmetry. etransitivity; [exact Gl|]. destruct (eqb_spec m n) as [Hmn|Hne]; [rewrite Hmn|]; reflexivity.
    + intros m Hm E. apply (T m Hm). etransitivity; [|exact E]. symmetry. etransitivity; [apply (f_equal l_stream); exact (Gl m)|]. destruct (eqb_spec m n) as [->|Hne]; reflexivity.
    + intros m. etransitivity; [apply (f_equal l_enabled); exact (Gl m)|]. destruct (eqb_spec m n) as [->|Hne]; [symmetry; exact En|apply O].
Qed.

Lemma run_ok ops : forall s gens hist got on, inv s gens hist got on -> obtained got ops -> (rotating cfg = true -> forall n t kvs, In (OLog n t kvs) ops -> n = n0) ->
  Forall dated (logged (c_enabled cfg) on ops) ->
  exists s' gens' got' on', run cfg s ops = Ok s' /\ inv s' gens' (hist ++ logged (c_enabled cfg) on ops) got' on'.
Proof.
  unfold run. induction ops as [|o ops IH]; intros s gens hist got on I Ho Hw Hd.
  - exists s, gens, got, on. rewrite app_nil_r. split; [reflexivity|exact I].
  - assert (Hw' : rotating cfg = true -> forall n t kvs, In (OLog n t kvs) ops -> n = n0) by (intros Hr n t kvs HI; apply (Hw Hr n t kvs); right; exact HI).
    destruct o as [n|n|n|n t kvs]; cbn [foldM step bind obtained logged] in *.
    + apply (IH _ gens hist (n :: got)); [apply get_ok, I|exact Ho|exact Hw'|exact Hd].
    + destruct Ho as [Hg Ho]. apply (IH _ gens hist got); [apply (enable_ok s n true), I; exact Hg|exact Ho|exact Hw'|exact Hd].
    + destruct Ho as [Hg Ho]. apply (IH _ gens hist got); [apply (enable_ok s n false), I; exact Hg|exact Ho|exact Hw'|exact Hd].
    + destruct Ho as [Hg Ho]. apply Forall_app in Hd. destruct Hd as [Hd1 Hd2].
      destruct (log_ok s n t kvs gens hist got on Hg) as (s1 & gens1 & -> & I1); [intros Hr; apply (Hw Hr n t kvs); left; reflexivity|intros E; rewrite E in Hd1; exact (Forall_inv Hd1)|exact I|].
      cbn [bind]. rewrite app_assoc. apply (IH s1 gens1 _ got on I1 Ho Hw' Hd2).
Qed.
Lemma fresh_inv fs : NoDup (dkeys (f_names fs)) -> (forall p, is_log_file (c_file cfg) p = true -> ~ In p (dkeys (f_names fs))) -> inv (fresh fs) [] [] [] [].
Proof.
  intros Hn H. constructor.
  - apply good_empty; assumption.
  - exists []. split; [reflexivity|left; reflexivity].
  - cbn [length]. destruct (rotating cfg); lia.
  - intros _. constructor.
  - intros n i E. discriminate.
  - intros n [].
  - intros n [].
  - reflexivity.
Qed.
End Run.

(** What the reader returns after a history. *)
Lemma history_ok cfg fs ops : NoDup (dkeys (f_names fs)) -> (forall p, is_log_file (c_file cfg) p = true -> ~ In p (dkeys (f_names fs))) ->
  obtained [] ops -> (c_max cfg = 0 \/ c_rot cfg = 0 \/ one_writer ops) -> Forall dated (logged (c_enabled cfg) [] ops) ->
  exists s files dropped, run cfg (fresh fs) ops = Ok s /\ logged (c_enabled cfg) [] ops = dropped ++ concat files /\
    map fst (get_log_files (c_file cfg) (s_fs s)) = rev (map (generation (c_file cfg)) (seq 0 (length files))) /\
    map (fun e => f_content (s_fs s) (snd e)) (get_log_files (c_file cfg) (s_fs s)) = map file_of files /\
    (c_max cfg = 0 \/ c_rot cfg = 0 -> length files <= 1 /\ dropped = []) /\
    (0 < c_max cfg -> 0 < c_rot cfg -> length files <= S (c_rot cfg) /\ (dropped <> [] -> length files = S (c_rot cfg)) /\
       Forall (fun es => length (file_of es) < c_max cfg \/ length es <= 1) files).
Proof.
  intros Hn Hf Ho Hw Hd.
  assert (Hw' : exists n0, rotating cfg = true -> forall n t kvs, In (OLog n t kvs) ops -> n = n0).
  { unfold rotating. destruct Hw as [E|[E|[n0 H]]]; [exists []; rewrite E; discriminate|exists []; rewrite E, andb_false_r; discriminate|exists n0; intros _; exact H]. }
  destruct Hw' as [n0 Hn0]. destruct (run_ok cfg n0 ops _ _ _ _ _ (fresh_inv cfg n0 fs Hn Hf) Ho Hn0 Hd) as (s & gens & got & on & Er & I). cbn [app] in I.
  destruct I as [G (dropped & Eh & Hdr) L Z _ _ _ _]. exists s, (rev (map snd gens)), dropped. split; [exact Er|]. split; [exact Eh|]. rewrite rev_length, map_length.
  split; [rewrite (list_files _ _ _ G); unfold listed; rewrite map_rev, map_map; reflexivity|]. split; [apply listed_contents, G|]. split.
  - intros H0. assert (Hr : rotating cfg = false) by (unfold rotating; destruct H0 as [-> | ->]; [reflexivity|apply andb_false_r]). rewrite Hr in *. split; [exact L|]. destruct Hdr as [H|[H _]]; [exact H|discriminate].
  - intros Hm Hrot. assert (Hr : rotating cfg = true) by (unfold rotating; apply andb_true_iff; split; apply Nat.ltb_lt; assumption). rewrite Hr in *. split; [exact L|]. split.
    + intros Hne. destruct Hdr as [H|[_ H]]; [congruence|exact H].
    + apply Forall_rev, Forall_map. exact (Z eq_refl).
Qed.

(** ** The console *)
Lemma get_do_get cfg s n m : get_lg (do_get cfg s n) m =
  if eqb m n then {| l_enabled := l_enabled (get_lg s n) || c_enabled cfg; l_conf := c_exists cfg; l_warned := l_warned (get_lg s n); l_file := l_file (get_lg s n);
                     l_stream := Some (s_next s); l_handlers := add_handler (Some (s_next s)) (l_handlers (get_lg s n)) |} else get_lg s m.
Proof. exact (get_set s n _ m). Qed.
Definition quiet (s : system) : Prop := forall n, let l := get_lg s n in match l_stream l with Some h => l_handlers l = [Some h] | None => l_handlers l = [] end.
Lemma log_console cfg s n t kvs s' : quiet s -> (l_stream (get_lg s n) <> None) -> do_log cfg s n t kvs = Ok s' -> s_console s' = s_console s /\ quiet s' /\
  forall m, l_stream (get_lg s' m) = l_stream (get_lg s m).
Proof.
  intros Q Hs. unfold do_log. pose proof (Q n) as Qn. cbn zeta in Qn. destruct (l_stream (get_lg s n)) as [h|] eqn:Es; [|congruence]. rewrite Qn.
  assert (Er : remove_handler (Some h) [Some h] = []) by (unfold remove_handler; cbn [filter]; rewrite eqb_refl; reflexivity). rewrite Er.
  destruct (negb (l_enabled (get_lg s n))).
  - destruct (l_warned (get_lg s n)); intros E; injection E as <-; [split; [reflexivity|split; [exact Q|reflexivity]]|]. split; [reflexivity|].
    split; [intros m|intros m]; unfold get_lg, set_lg; cbn [s_loggers s_fs]; rewrite dget_dset; destruct (eqb_spec m n) as [->|]; cbn zeta; cbn [l_stream l_handlers]; try reflexivity.
    + exact (Q m).
    + symmetry. exact Es.
  - destruct (match l_file (get_lg s n) with Some i => (s_fs s, i) | None => f_open (s_fs s) (c_file cfg) end) as [fs1 i1]. cbn [mem existsb flat_map].
    destruct (emit cfg fs1 i1 (log_row t kvs)) as [fs2 i2]. intros E. injection E as <-. split; [apply app_nil_r|].
    split; [intros m|intros m]; unfold get_lg, set_lg; cbn [s_loggers s_fs]; rewrite dget_dset; destruct (eqb_spec m n) as [->|]; cbn zeta; cbn [l_stream l_handlers]; try reflexivity.
    + exact (Q m).
    + symmetry. exact Es.
Qed.
Lemma run_console cfg ops : forall s got, quiet s -> (forall n, In n got -> l_stream (get_lg s n) <> None) -> (forall n, l_stream (get_lg s n) <> None -> In n got) ->
  obtained got ops -> NoDup (got ++ gets ops) -> forall s', run cfg s ops = Ok s' -> s_console s' = s_console s.
Proof.
  unfold run. induction ops as [|o ops IH]; intros s got Q H1 H2 Ho Hd s' E; [injection E as <-; reflexivity|].
  destruct o as [n|n|n|n t kvs]; cbn [foldM step bind obtained gets flat_map app] in *; fold (gets ops) in *.
  - assert (Hn : ~ In n got).
    { intros HI. apply NoDup_remove_2 in Hd. apply Hd, in_app_iff. left. exact HI. }
    assert (Es : l_stream (get_lg s n) = None) by (destruct (l_stream (get_lg s n)) eqn:Es; [destruct Hn; apply H2; rewrite Es; discriminate|reflexivity]).
    pose proof (Q n) as Qn. cbn zeta in Qn. rewrite Es in Qn.
    etransitivity; [apply (IH (do_get cfg s n) (n :: got)); [| | | | |exact E]|reflexivity].
    + intros m. cbn zeta. rewrite get_do_get. destruct (eqb_spec m n) as [->|]; [|exact (Q m)]. cbn [l_stream l_handlers]. rewrite Qn. reflexivity.
    + intros m Hm. rewrite get_do_get. destruct (eqb_spec m n) as [->|Hne]; [discriminate|]. apply H1. destruct Hm as [->|Hm]; [congruence|exact Hm].
    + intros m. rewrite get_do_get. destruct (eqb_spec m n) as [->|Hne]; [left; reflexivity|]. intros Hm. right. apply H2, Hm.
    + exact Ho.
    + cbn [app]. eapply Permutation_NoDup; [|exact Hd]. symmetry. apply Permutation_middle.
  - destruct Ho as [_ Ho]. etransitivity; [apply (IH (do_enable s n true) got); [| | |exact Ho|exact Hd|exact E]|reflexivity].
    + intros m. unfold do_enable. rewrite get_set. destruct (eqb_spec m n) as [->|]; exact (Q _).
    + intros m Hm. unfold do_enable. rewrite get_set. destruct (eqb_spec m n) as [->|]; exact (H1 _ Hm).
    + intros m. unfold do_enable. rewrite get_set. destruct (eqb_spec m n) as [->|]; exact (H2 _).
  - destruct Ho as [_ Ho]. etransitivity; [apply (IH (do_enable s n false) got); [| | |exact Ho|exact Hd|exact E]|reflexivity].
    + intros m. unfold do_enable. rewrite get_set. destruct (eqb_spec m n) as [->|]; exact (Q _).
    + intros m Hm. unfold do_enable. rewrite get_set. destruct (eqb_spec m n) as [->|]; exact (H1 _ Hm).
    + intros m. unfold do_enable. rewrite get_set. destruct (eqb_spec m n) as [->|]; exact (H2 _).
  - destruct Ho as [Hg Ho]. destruct (do_log cfg s n t kvs) as [s1|e] eqn:E1; [|discriminate]. cbn [bind] in E.
    destruct (log_console cfg s n t kvs s1 Q (H1 n Hg) E1) as (C1 & Q1 & S1). rewrite <- C1. apply (IH s1 got); try assumption; intros m; rewrite S1; auto.
Qed.
