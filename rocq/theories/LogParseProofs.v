(** Dates given as text and settings in any order. *)
From Verif Require Import Base ResultFacts PyStr LogModel LogSpec LogTimeProofs LogReadProofs LogConfProofs.
Local Open Scope string_scope.
Local Open Scope list_scope.
Local Open Scope nat_scope.

Lemma number_iff s n : number s n <-> forallb is_dec_digit s = true /\ digits_value s = n.
Proof.
  unfold number, digits_value, code. rewrite Forall_forall, forallb_forall. split; intros [H E]; (split; [|exact E]); intros c Hc; specialize (H c Hc); rewrite digit_iff in *; apply between_iff; exact H.
Qed.
Lemma field_iff lo hi s n : field lo hi s = Some n <-> short s /\ number s n /\ lo <= n <= hi.
Proof.
  unfold field, short. rewrite number_iff. destruct (between 1 2 (length s)) eqn:B; cbn [andb].
  - apply between_iff in B. destruct (forallb is_dec_digit s); cbn [andb].
    + destruct (between lo hi (digits_value s)) eqn:V; cbn.
      * apply between_iff in V. split; [intros E; injection E as <-; auto|intros (_ & (_ & <-) & _); reflexivity].
      * split; [discriminate|]. intros (_ & (_ & <-) & K). apply between_iff in K. congruence.
    + split; [discriminate|]. intros (_ & (K & _) & _). discriminate.
  - split; [discriminate|]. intros (K & _). apply between_iff in K. congruence.
Qed.
Lemma year_iff s n : year_field s = Some n <-> length s = 4 /\ number s n.
Proof.
  unfold year_field. rewrite number_iff. destruct (Nat.eqb_spec (length s) 4) as [E|N]; cbn [andb]; [|split; [discriminate|intros (K & _); contradiction]].
  destruct (forallb is_dec_digit s); [|split; [discriminate|intros (_ & K & _); discriminate]]. split; [intros K; injection K as <-; auto|intros (_ & _ & <-); reflexivity].
Qed.
Lemma year_bound s n : length s = 4 -> number s n -> (N.of_nat n < 10000)%N.
Proof.
  intros L [H E]. destruct s as [|a [|b [|c [|d [|]]]]]; try discriminate. rewrite Forall_forall in H. pose proof (H a ltac:(cbn; tauto)) as Ha. pose proof (H b ltac:(cbn; tauto)) as Hb. pose proof (H c ltac:(cbn; tauto)) as Hc. pose proof (H d ltac:(cbn; tauto)) as Hd. cbn [fold_left] in E. lia.
Qed.
Fixpoint glue (c : ascii) (l : list pystr) : pystr :=
  match l with [] => [] | [p] => p | p :: l' => p ++ c :: glue c l' end.
Lemma split_inv c s : forall l, split c s = l -> s = glue c l /\ Forall (fun p => ~ In c p) l.
Proof.
  assert (G : forall s cur, ~ In c cur -> rev cur ++ s = glue c (split_go c cur s) /\ Forall (fun p => ~ In c p) (split_go c cur s)).
  { clear s. induction s as [|a s IH]; intros cur Hc; cbn [split_go].
    - rewrite app_nil_r. split; [reflexivity|]. constructor; [|constructor]. rewrite <- in_rev. exact Hc.
    - destruct (eqb_spec a c) as [->|N].
      + destruct (IH [] (fun x => x)) as [E F]. split; [|constructor; [rewrite <- in_rev; exact Hc|exact F]].
        cbn [rev app] in E. rewrite E at 1. destruct (split_go c [] s) as [|p ps] eqn:Es; [exfalso; apply (split_go_cons c s [] Es)|]. reflexivity.
      + destruct (IH (a :: cur)) as [E F]. { intros [H|H]; [congruence|exact (Hc H)]. } split; [|exact F]. rewrite <- E. cbn [rev]. rewrite <- app_assoc. reflexivity. }
  intros l <-. exact (G s [] (fun x => x)).
Qed.
Lemma take_drop f s : s = take_while f s ++ drop_while f s /\ forallb f (take_while f s) = true /\ match drop_while f s with [] => true | a :: _ => negb (f a) end = true.
Proof.
  induction s as [|a s (E & F & D)]; [repeat split|]. cbn [take_while drop_while]. destruct (f a) eqn:Fa.
  - cbn [app forallb]. rewrite Fa. split; [congruence|]. split; [exact F|exact D].
  - split; [reflexivity|]. split; [reflexivity|]. rewrite Fa. reflexivity.
Qed.
Lemma blank_iff c : blank c <-> is_space c = true.
Proof.
  unfold blank, is_space, code, between. set (n := nat_of_ascii c). clearbody n. rewrite !orb_true_iff, !andb_true_iff, !Nat.leb_le, !Nat.eqb_eq. cbn [In]. lia.
Qed.
Lemma digit_not_space c : is_dec_digit c = true -> is_space c = false.
Proof. destruct c as [[] [] [] [] [] [] [] []]; vm_compute; congruence. Qed.
Lemma valid_of y m d h mi se : 1 <= y -> (N.of_nat y < 10000)%N -> 1 <= m <= 12 -> 1 <= d -> d <= days_in_month y m -> h <= 23 -> mi <= 59 -> se <= 59 ->
  valid {| d_year := y; d_month := m; d_day := d; d_hour := h; d_min := mi; d_sec := se; d_micro := 0 |}.
Proof. intros. unfold valid. cbn [d_year d_month d_day d_hour d_min d_sec d_micro]. rewrite <- month_days_ok by assumption. repeat split; lia. Qed.

Lemma parse_sound s t : parse_default s = Ok t -> valid t /\ d_micro t = 0 /\ written s t.
Proof.
  unfold parse_default. destruct (split "/"%char s) as [|y [|m [|r [|]]]] eqn:Es; try discriminate. apply split_inv in Es. destruct Es as [Es _]. cbn [glue app] in Es.
  set (bl := match r with a :: _ => eqb a " "%char | [] => false end). cbv zeta. set (r1 := if bl then tl r else r). set (ds := take_while is_dec_digit r1). set (r2 := drop_while is_dec_digit r1).
  set (sp := take_while is_space r2). destruct (split ":"%char (drop_while is_space r2)) as [|h [|mi [|se [|]]]] eqn:Et; try discriminate. apply split_inv in Et. destruct Et as [Et _]. cbn [glue app] in Et.
  destruct (year_field y) as [yn|] eqn:Ey; [|discriminate]. destruct (field 1 12 m) as [mn|] eqn:Em; [|discriminate]. destruct (day_field ((if bl then [" "%char] else []) ++ ds)) as [dn|] eqn:Ed; [|discriminate].
  destruct (field 0 23 h) as [hn|] eqn:Eh; [|discriminate]. destruct (field 0 59 mi) as [min|] eqn:Emi; [|discriminate]. destruct (field 0 59 se) as [sn|] eqn:Ese; [|discriminate].
  destruct (negb (eqb sp []) && (1 <=? yn) && (dn <=? days_in_month yn mn)) eqn:C; [|discriminate]. intros K. injection K as <-. cbn [d_micro].
  apply andb_true_iff in C. destruct C as [C Cd]. apply andb_true_iff in C. destruct C as [Csp Cy]. apply Nat.leb_le in Cy, Cd. apply year_iff in Ey. destruct Ey as [Ly Ny]. apply field_iff in Em, Eh, Emi, Ese. destruct Em as (Sm & Nm & Bm), Eh as (Sh & Nh & Bh), Emi as (Smi & Nmi & Bmi), Ese as (Ss & Ns & Bs).
  assert (Hd : 1 <= dn /\ (short ((if bl then [" "%char] else []) ++ ds) /\ number ((if bl then [" "%char] else []) ++ ds) dn \/ exists d', (if bl then [" "%char] else []) ++ ds = " "%char :: d' /\ length d' = 1 /\ number d' dn)).
  { unfold day_field in Ed. destruct ((if bl then [" "%char] else []) ++ ds) as [|a d'] eqn:Edd; [discriminate|]. destruct (eqb_spec a " "%char) as [->|N].
    - destruct (Nat.eqb_spec (length d') 1) as [L|]; [|discriminate]. apply field_iff in Ed. destruct Ed as (_ & Nd & B). split; [lia|]. right. eauto.
    - apply field_iff in Ed. destruct Ed as (Sd & Nd & B). split; [lia|]. left. auto. }
  destruct Hd as [Hd1 Hd]. split; [apply valid_of; try assumption; try lia; apply (year_bound y); assumption|]. split; [reflexivity|].
  exists y, m, ((if bl then [" "%char] else []) ++ ds), sp, h, mi, se. cbn [d_year d_month d_day d_hour d_min d_sec].
  split; [|split; [exact Ly|split; [exact Ny|split; [exact Sm|split; [exact Nm|split; [exact Hd|split; [|split; [|repeat (split; [assumption|]); assumption]]]]]]]].
  - rewrite Es. destruct (take_drop is_dec_digit r1) as (E1 & _). destruct (take_drop is_space r2) as (E2 & _). fold ds r2 in E1. fold sp in E2.
    assert (Er : r = (if bl then [" "%char] else []) ++ r1). { unfold r1, bl. destruct r as [|a r']; [reflexivity|]. destruct (eqb_spec a " "%char) as [->|_]; reflexivity. }
    change (str "/") with ["/"%char]. change (str ":") with [":"%char]. cbn [app]. rewrite Er, E1, E2, Et. rewrite <- !app_assoc. cbn [app]. reflexivity.
  - intros E. rewrite E in Csp. discriminate.
  - destruct (take_drop is_space r2) as (_ & F & _). fold sp in F. rewrite forallb_forall in F. apply Forall_forall. intros c Hc. apply blank_iff, F, Hc.
Qed.

Lemma parse_complete s t : valid t -> d_micro t = 0 -> written s t -> parse_default s = Ok t.
Proof.
  intros V H0 (y & m & d & b & h & mi & se & -> & Ly & Ny & Sm & Nm & Hd & Nb & Bb & Sh & Nh & Smi & Nmi & Ss & Ns). pose proof V as (Hy1 & Hy & Hm & Hdd & Hh & Hmi & Hs & _).
  pose proof (month_days_bound (is_leap (d_year t)) (d_month t - 1)) as MB.
  assert (Dg : forall s n c, number s n -> is_dec_digit c = false -> ~ In c s) by (intros s n c Hn Hc; apply number_iff in Hn; apply digits_no; [exact Hc|apply Hn]).
  assert (Bl : forall c, is_space c = false -> ~ In c b). { intros c Hc HI. rewrite Forall_forall in Bb. apply Bb, blank_iff in HI. congruence. }
  set (p := if match d with a :: _ => eqb a " "%char | [] => false end then [" "%char] else @nil ascii).
  assert (Hd' : exists ds, d = p ++ ds /\ forallb is_dec_digit ds = true /\ ds <> [] /\ match ds with a :: _ => eqb a " "%char | [] => false end = false /\ day_field (p ++ ds) = Some (d_day t) /\ (forall c, is_dec_digit c = false -> c <> " "%char -> ~ In c d)).
  { destruct Hd as [(Sd & Nd)|(d' & Ed & Ld & Nd)].
    - pose proof Nd as Nd'. apply number_iff in Nd'. destruct Nd' as [Fd _]. assert (exists a d', d = a :: d') as (a & d' & Ed') by (destruct d; [destruct Sd as [Sd _]; cbn in Sd; lia|eauto]).
      assert (Na : eqb a " "%char = false). { apply eqb_neq. intros ->. rewrite Ed' in Fd. discriminate. }
      assert (Ep : p = []) by (unfold p; rewrite Ed', Na; reflexivity). rewrite Ep. exists d. cbn [app]. split; [reflexivity|]. split; [exact Fd|]. split; [congruence|]. split; [rewrite Ed'; exact Na|]. split.
      + unfold day_field. rewrite Ed'. rewrite Na. rewrite <- Ed'. apply field_iff. split; [exact Sd|]. split; [exact Nd|lia].
      + intros c Hc _. apply (Dg d _ c Nd Hc).
    - assert (Ep : p = [" "%char]) by (unfold p; rewrite Ed; reflexivity). rewrite Ep. exists d'. pose proof Nd as Nd'. apply number_iff in Nd'. destruct Nd' as [Fd Vd]. split; [exact Ed|]. split; [exact Fd|]. destruct d' as [|a [|]]; try discriminate. split; [discriminate|]. split; [apply eqb_neq; intros ->; discriminate|]. split.
      + unfold day_field. cbn [app]. replace (eqb " "%char " "%char) with true by reflexivity. cbn [length Nat.eqb]. apply field_iff. split; [unfold short; cbn; lia|]. split; [exact Nd|]. split; [lia|]. rewrite <- Vd. unfold digits_value, code. cbn [fold_left]. cbn [forallb] in Fd. rewrite andb_true_r, digit_iff in Fd. apply between_iff in Fd. lia.
      + intros c Hc Hc'. rewrite Ed. intros [H|H]; [congruence|]. exact (Dg _ _ c Nd Hc H). }
  destruct Hd' as (ds & Ed & Fd & Nds & Bds & Dd & Dn). unfold parse_default. change (str "/") with ["/"%char]. change (str ":") with [":"%char]. rewrite <- ?app_assoc. cbn [app].
  rewrite split_head by (apply (Dg y _ _ Ny); reflexivity). rewrite split_head by (apply (Dg m _ _ Nm); reflexivity).
  rewrite split_plain.
  2: { repeat (rewrite in_app_iff || cbn [In]). intros [H|[H|[H|[H|[H|[H|H]]]]]]; try discriminate H; revert H; [apply Dn; [reflexivity|discriminate]|apply Bl; reflexivity|apply (Dg h _ _ Nh); reflexivity|apply (Dg mi _ _ Nmi); reflexivity|apply (Dg se _ _ Ns); reflexivity]. }
  set (T := h ++ ":"%char :: mi ++ ":"%char :: se).
  assert (Ebl : match d ++ b ++ T with a :: _ => eqb a " "%char | [] => false end = match d with a :: _ => eqb a " "%char | [] => false end). { destruct d as [|a d']; [|reflexivity]. exfalso. destruct p; destruct ds; [apply Nds; reflexivity|discriminate Ed|discriminate Ed|discriminate Ed]. }
  rewrite Ebl. cbv zeta. fold p.
  assert (Er : (if match d with a :: _ => eqb a " "%char | [] => false end then tl (d ++ b ++ T) else d ++ b ++ T) = ds ++ b ++ T).
  { unfold p in Ed. destruct (match d with a :: _ => eqb a " "%char | [] => false end); rewrite Ed; cbn [app]; reflexivity. }
  rewrite Er. destruct b as [|b0 b']; [congruence|].
  assert (Sb : is_space b0 = true) by (apply blank_iff; exact (Forall_inv Bb)). assert (Db : is_dec_digit b0 = false) by (destruct (is_dec_digit b0) eqn:E; [rewrite (digit_not_space _ E) in Sb; discriminate|reflexivity]).
  destruct (take_while_app is_dec_digit ds ((b0 :: b') ++ T) Fd) as [E1 E2]. { cbn [app]. rewrite Db. reflexivity. }
  rewrite E1, E2. destruct (take_while_app is_space (b0 :: b') T) as [E3 E4].
  { apply forallb_forall. intros c Hc. apply blank_iff. rewrite Forall_forall in Bb. apply Bb, Hc. }
  { unfold T. destruct h as [|h0 h']; [destruct Sh as [Sh _]; cbn in Sh; lia|]. cbn [app]. apply number_iff in Nh. destruct Nh as [Fh _]. cbn [forallb] in Fh. apply andb_true_iff in Fh. rewrite (digit_not_space _ (proj1 Fh)). reflexivity. }
  rewrite E3, E4. unfold T. rewrite split_head by (apply (Dg h _ _ Nh); reflexivity). rewrite split_head by (apply (Dg mi _ _ Nmi); reflexivity). rewrite split_plain by (apply (Dg se _ _ Ns); reflexivity).
  assert (A1 : year_field y = Some (d_year t)) by (apply year_iff; auto). assert (A2 : field 1 12 m = Some (d_month t)) by (apply field_iff; auto).
  assert (A3 : field 0 23 h = Some (d_hour t)) by (apply field_iff; repeat (split; [assumption|]); lia). assert (A4 : field 0 59 mi = Some (d_min t)) by (apply field_iff; repeat (split; [assumption|]); lia). assert (A5 : field 0 59 se = Some (d_sec t)) by (apply field_iff; repeat (split; [assumption|]); lia).
  rewrite A1, A2, Dd, A3, A4, A5. rewrite (month_days_ok _ _ Hm). replace (1 <=? d_year t) with true by (symmetry; apply Nat.leb_le; lia). replace (d_day t <=? _) with true by (symmetry; apply Nat.leb_le; lia).
  clear - H0. replace (eqb (b0 :: b') []) with false by reflexivity. cbn [negb andb]. destruct t. cbn in *. subst. reflexivity.
Qed.
Lemma parse_iff s t : parse_default s = Ok t <-> valid t /\ d_micro t = 0 /\ written s t.
Proof. split; [apply parse_sound|]. intros (A & B & D). apply parse_complete; assumption. Qed.

(** ** Settings *)
Lemma fold_last kvs k : forall (d : dict pystr pystr) acc, dget d k = acc -> dget (fold_left (fun d kv => dset d (fst kv) (snd kv)) kvs d) k = fold_left (fun acc kv => if eqb (fst kv) k then Some (snd kv) else acc) kvs acc.
Proof.
  induction kvs as [|kv kvs IH]; intros d acc H; [exact H|]. cbn [fold_left]. apply IH. rewrite dget_dset. destruct (eqb_spec k (fst kv)) as [->|N]; [rewrite eqb_refl; reflexivity|]. destruct (eqb_spec (fst kv) k); [congruence|exact H].
Qed.
Lemma reads_ok d k o n : dget d k = o -> reads o n -> int_setting d k = Ok n.
Proof.
  intros E H. unfold int_setting. rewrite E. destruct o as [v|]; [|cbn in H; congruence]. destruct H as [->|(-> & c & HI & H1 & H2)].
  - destruct (isdigit_dec n) as [-> ->]. reflexivity.
  - assert (F : isdigit v = false); [|rewrite F; reflexivity]. unfold isdigit. apply andb_false_iff. right. apply not_true_iff_false. rewrite forallb_forall. intros H. specialize (H c HI). unfold is_digit, code in H. cbn [In] in H2.
    rewrite !orb_true_iff, !Nat.eqb_eq, between_iff in H. lia.
Qed.
Lemma settings_ok kvs size rotations : Forall (fun kv => plain_text (fst kv) /\ plain_text (snd kv)) kvs ->
  reads (last_of kvs (str "max_size")) size -> reads (last_of kvs (str "max_rotations")) rotations ->
  initialize (Some (concat (map (fun kv => setting (fst kv) (snd kv)) kvs))) =
  Ok {| c_exists := true; c_enabled := eqb (last_of kvs (str "file_logging")) (Some (str "true"));
        c_file := match last_of kvs (str "log_file") with Some f => f | None => str "ignis.log" end; c_max := size; c_rot := rotations |}.
Proof.
  intros H Hs Hr. unfold initialize. rewrite load_settings by exact H.
  assert (L : forall k, dget (fold_left (fun d kv => dset d (fst kv) (snd kv)) kvs []) k = last_of kvs k) by (intros k; apply fold_last; reflexivity).
  rewrite (reads_ok _ _ _ size (L _) Hs). cbn [bind]. rewrite (reads_ok _ _ _ rotations (L _) Hr). cbn [bind]. rewrite !L. reflexivity.
Qed.
