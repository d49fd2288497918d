(** Dates: writing and reading them, and their order. *)
From Verif Require Import Base PyStr ResultFacts LogModel LogSpec.
Local Open Scope string_scope.
Local Open Scope list_scope.
Local Open Scope nat_scope.

Lemma between_iff a b n : between a b n = true <-> a <= n <= b.
Proof. unfold between. rewrite andb_true_iff, !Nat.leb_le. lia. Qed.

(** ** Calendar *)
Lemma leap_is y : leap y = is_leap y.
Proof.
  unfold leap, is_leap. destruct (Nat.eqb_spec (y mod 400) 0) as [E|E].
  - apply Nat.mod_divide in E; [|lia]. destruct E as [k ->].
    replace (k * 400) with (k * 100 * 4) by lia. rewrite Nat.mod_mul by lia. rewrite orb_true_r. reflexivity.
  - rewrite orb_false_r. destruct (Nat.eqb_spec (y mod 100) 0) as [F|F]; cbn [negb]; [|rewrite andb_true_r; reflexivity].
    apply andb_false_r.
Qed.
Lemma month_days_ok y m : 1 <= m <= 12 -> days_in_month y m = nth (m - 1) (month_days (is_leap y)) 0.
Proof.
  intros Hm. unfold days_in_month. rewrite leap_is. destruct (is_leap y); do 13 (destruct m as [|m]; [try lia; reflexivity|]); lia.
Qed.
Lemma month_days_len l : length (month_days l) = 12.
Proof. reflexivity. Qed.
Lemma month_days_bound l i : nth i (month_days l) 0 <= 31.
Proof. destruct l; do 12 (destruct i as [|i]; [cbn; lia|]); destruct i; cbn; lia. Qed.

Lemma firstn_sum_step (l : list nat) i : i < length l -> list_sum (firstn (S i) l) = list_sum (firstn i l) + nth i l 0.
Proof.
  revert i. induction l as [|a l IH]; intros i Hi; [cbn in Hi; lia|]. destruct i as [|i]; [cbn; lia|].
  cbn [length] in Hi. specialize (IH i ltac:(lia)). cbn [firstn nth list_sum fold_right] in *. cbn [firstn] in IH.
  change (fold_right Nat.add 0 (firstn i l)) with (list_sum (firstn i l)). cbn [list_sum fold_right] in IH.
  unfold list_sum in *. cbn [fold_right] in *. lia.
Qed.
Lemma firstn_sum_mono (l : list nat) i j : i <= j -> list_sum (firstn i l) <= list_sum (firstn j l).
Proof.
  intros H. revert i j H. induction l as [|a l IH]; intros i j H; [rewrite !firstn_nil; lia|].
  destruct i as [|i]; [cbn; lia|]. destruct j as [|j]; [lia|]. cbn [firstn list_sum fold_right]. specialize (IH i j ltac:(lia)). unfold list_sum in *. cbn [fold_right]. lia.
Qed.

(** The day of the year. *)
Definition in_year (t : dt) : nat := list_sum (firstn (d_month t - 1) (month_days (is_leap (d_year t)))) + (d_day t - 1).
Lemma in_year_bound t : valid t -> in_year t < days_of_year (d_year t).
Proof.
  intros (_ & _ & Hm & Hd & _). unfold in_year, days_of_year. set (l := month_days _) in *.
  pose proof (firstn_sum_step l (d_month t - 1) ltac:(subst l; rewrite month_days_len; lia)) as E.
  pose proof (firstn_sum_mono l (S (d_month t - 1)) (length l) ltac:(subst l; rewrite month_days_len; lia)) as F. rewrite firstn_all in F. lia.
Qed.
Lemma in_year_month t u : valid t -> valid u -> d_year t = d_year u -> d_month t < d_month u -> in_year t < in_year u.
Proof.
  intros (_ & _ & Hm & Hd & _) (_ & _ & Hm' & Hd' & _) Ey Hlt. unfold in_year. rewrite <- Ey in *. set (l := month_days _) in *.
  pose proof (firstn_sum_step l (d_month t - 1) ltac:(subst l; rewrite month_days_len; lia)) as E.
  pose proof (firstn_sum_mono l (S (d_month t - 1)) (d_month u - 1) ltac:(lia)) as F. lia.
Qed.
Lemma in_year_day t u : valid t -> valid u -> d_year t = d_year u -> d_month t = d_month u -> d_day t < d_day u -> in_year t < in_year u.
Proof. intros (_ & _ & _ & Hd & _) (_ & _ & _ & Hd' & _) Ey Em H. unfold in_year. rewrite Ey, Em. lia. Qed.

Lemma days_before_S y : 1 <= y -> days_before (S y) = days_before y + days_of_year y.
Proof.
  intros H. unfold days_before. replace (S y - 1) with (S (y - 1)) by lia. rewrite seq_S, map_app, list_sum_app. cbn [map list_sum fold_right].
  replace (1 + (y - 1)) with y by lia. lia.
Qed.
Lemma days_before_mono a b : 1 <= a -> a < b -> days_before a + days_of_year a <= days_before b.
Proof.
  intros Ha H. induction b as [|b IH]; [lia|]. destruct (Nat.eq_dec a b) as [->|Hne]; [rewrite days_before_S by lia; lia|].
  rewrite (days_before_S b) by lia. specialize (IH ltac:(lia)). lia.
Qed.
Lemma day_number_eq t : day_number t = days_before (d_year t) + in_year t.
Proof. unfold day_number, in_year. lia. Qed.

(** ** Order *)
Definition date_lt (t u : dt) : Prop :=
  d_year t < d_year u \/ d_year t = d_year u /\ (d_month t < d_month u \/ d_month t = d_month u /\ d_day t < d_day u).
Lemma day_number_lt t u : valid t -> valid u -> date_lt t u -> day_number t < day_number u.
Proof.
  intros Vt Vu H. rewrite !day_number_eq. destruct H as [H|[Ey [H|[Em H]]]].
  - pose proof (in_year_bound t Vt). pose proof (days_before_mono (d_year t) (d_year u) ltac:(destruct Vt; lia) H). lia.
  - pose proof (in_year_month t u Vt Vu Ey H). rewrite Ey. lia.
  - pose proof (in_year_day t u Vt Vu Ey Em H). rewrite Ey. lia.
Qed.
Lemma lex_cons x y a b : lex_ltb (x :: a) (y :: b) = true <-> x < y \/ x = y /\ lex_ltb a b = true.
Proof. cbn [lex_ltb]. rewrite orb_true_iff, andb_true_iff, Nat.ltb_lt, Nat.eqb_eq. reflexivity. Qed.
Lemma lex_nil : lex_ltb [] [] = true <-> False.
Proof. cbn. split; [discriminate|tauto]. Qed.

Lemma dt_lt_micros t u : valid t -> valid u -> dt_ltb t u = true -> (micros t < micros u)%N.
Proof.
  intros Vt Vu H. unfold dt_ltb, fields in H. rewrite !lex_cons, lex_nil in H.
  pose proof Vt as (_ & _ & _ & _ & Hh & Hmi & Hs & Hu). pose proof Vu as (_ & _ & _ & _ & Hh' & Hmi' & Hs' & Hu'). unfold micros.
  assert (D : date_lt t u \/ (d_year t = d_year u /\ d_month t = d_month u /\ d_day t = d_day u) /\
     (d_hour t < d_hour u \/ d_hour t = d_hour u /\ (d_min t < d_min u \/ d_min t = d_min u /\ (d_sec t < d_sec u \/ d_sec t = d_sec u /\ (d_micro t < d_micro u \/ d_micro t = d_micro u /\ False)))))
    by (unfold date_lt; tauto).
  destruct D as [D|[(Ey & Em & Ed) D]].
  - pose proof (day_number_lt t u Vt Vu D). lia.
  - assert (E : day_number t = day_number u) by (unfold day_number; rewrite Ey, Em, Ed; reflexivity). rewrite E. lia.
Qed.
Lemma dt_total t u : dt_ltb t u = true \/ dt_ltb u t = true \/ fields t = fields u.
Proof.
  unfold dt_ltb, fields. rewrite !lex_cons, lex_nil.
  destruct (Nat.lt_trichotomy (d_year t) (d_year u)) as [|[->|]]; [tauto| |tauto].
  destruct (Nat.lt_trichotomy (d_month t) (d_month u)) as [|[->|]]; [tauto| |tauto].
  destruct (Nat.lt_trichotomy (d_day t) (d_day u)) as [|[->|]]; [tauto| |tauto].
  destruct (Nat.lt_trichotomy (d_hour t) (d_hour u)) as [|[->|]]; [tauto| |tauto].
  destruct (Nat.lt_trichotomy (d_min t) (d_min u)) as [|[->|]]; [tauto| |tauto].
  destruct (Nat.lt_trichotomy (d_sec t) (d_sec u)) as [|[->|]]; [tauto| |tauto].
  destruct (Nat.lt_trichotomy (d_micro t) (d_micro u)) as [|[->|]]; [tauto| |tauto]. right; right; reflexivity.
Qed.
Lemma fields_inj t u : fields t = fields u -> t = u.
Proof. destruct t, u. cbn. intros E. injection E as -> -> -> -> -> -> ->. reflexivity. Qed.
Lemma dt_ltb_micros t u : valid t -> valid u -> dt_ltb t u = negb (N.leb (micros u) (micros t)).
Proof.
  intros Vt Vu. destruct (dt_total t u) as [H|[H|H]].
  - pose proof (dt_lt_micros t u Vt Vu H). rewrite H. symmetry. apply negb_true_iff, N.leb_gt. exact H0.
  - pose proof (dt_lt_micros u t Vu Vt H). destruct (dt_ltb t u) eqn:E.
    + pose proof (dt_lt_micros t u Vt Vu E). lia.
    + symmetry. apply negb_false_iff, N.leb_le. lia.
  - apply fields_inj in H. subst u. rewrite N.leb_refl. cbn [negb]. destruct (dt_ltb t t) eqn:E; [|reflexivity].
    pose proof (dt_lt_micros t t Vt Vt E). lia.
Qed.

(** ** Writing *)
Lemma pad_two n : n < 100 -> pad 2 n = two n.
Proof.
  intros H. assert (A : forallb (fun n => eqb (pad 2 n) (two n)) (seq 0 100) = true) by (vm_compute; reflexivity).
  rewrite forallb_forall in A. apply eqb_true, A, in_seq. lia.
Qed.
Lemma pad_four n : 1000 <= n -> (N.of_nat n < 10000)%N -> pad 4 n = four n.
Proof.
  intros H H'. assert (A : forallb (fun n => eqb (pad 4 n) (four n)) (seq 1000 (N.to_nat 9000)) = true) by (vm_compute; reflexivity).
  rewrite forallb_forall in A. apply eqb_true, A, in_seq. lia.
Qed.
Lemma numeral_code n : nat_of_ascii (numeral n) = 48 + n mod 10.
Proof. unfold numeral. apply nat_ascii_embedding. pose proof (Nat.mod_upper_bound n 10). lia. Qed.
Lemma digit_iff c : is_dec_digit c = between 48 57 (nat_of_ascii c).
Proof. destruct c as [[] [] [] [] [] [] [] []]; reflexivity. Qed.
Lemma numeral_digit n : is_dec_digit (numeral n) = true.
Proof. rewrite digit_iff, numeral_code. apply between_iff. pose proof (Nat.mod_upper_bound n 10). lia. Qed.
Lemma two_value n : n < 100 -> digits_value (two n) = n.
Proof.
  intros H. unfold two, digits_value, code. cbn [fold_left]. rewrite !numeral_code. pose proof (Nat.div_mod_eq n 10).
  pose proof (Nat.div_lt_upper_bound n 10 10 ltac:(lia) ltac:(lia)). rewrite (Nat.mod_small (n / 10)) by lia. lia.
Qed.
Lemma four_value n : (N.of_nat n < 10000)%N -> digits_value (four n) = n.
Proof.
  intros H. unfold four, digits_value, code. cbn [fold_left]. rewrite !numeral_code.
  assert (E100 : n / 100 = n / 10 / 10) by (rewrite Nat.div_div by lia; reflexivity).
  assert (E1000 : n / 1000 = n / 10 / 10 / 10) by (rewrite !Nat.div_div by lia; reflexivity). rewrite E100, E1000.
  pose proof (Nat.div_mod_eq n 10). pose proof (Nat.div_mod_eq (n / 10) 10). pose proof (Nat.div_mod_eq (n / 10 / 10) 10).
  pose proof (Nat.mod_upper_bound n 10 ltac:(lia)). pose proof (Nat.mod_upper_bound (n / 10) 10 ltac:(lia)). pose proof (Nat.mod_upper_bound (n / 10 / 10) 10 ltac:(lia)).
  assert (n / 10 / 10 / 10 < 10) by lia. rewrite (Nat.mod_small (n / 10 / 10 / 10)) by lia. lia.
Qed.
Lemma two_digits n : forallb is_dec_digit (two n) = true.
Proof. unfold two. cbn [forallb]. rewrite !numeral_digit. reflexivity. Qed.
Lemma four_digits n : forallb is_dec_digit (four n) = true.
Proof. unfold four. cbn [forallb]. rewrite !numeral_digit. reflexivity. Qed.
Lemma field_two lo hi n : lo <= n <= hi -> hi < 100 -> field lo hi (two n) = Some n.
Proof.
  intros H Hh. unfold field. rewrite two_digits, two_value by lia. replace (between lo hi n) with true by (symmetry; apply between_iff; lia). reflexivity.
Qed.
Lemma date_text_ok t : valid t -> 1000 <= d_year t -> date_str t = date_text t.
Proof.
  intros (_ & Hy & Hm & Hd & _) H. unfold date_str, date_text. pose proof (month_days_bound (is_leap (d_year t)) (d_month t - 1)).
  rewrite pad_four, !pad_two by (assumption || lia). reflexivity.
Qed.
Lemma time_text_ok t : valid t -> time_str t = time_text t.
Proof. intros (_ & _ & _ & _ & Hh & Hmi & Hs & _). unfold time_str, time_text. rewrite !pad_two by lia. reflexivity. Qed.

(** ** Reading *)
Lemma digits_no c s : is_dec_digit c = false -> forallb is_dec_digit s = true -> ~ In c s.
Proof. intros Hc Hs HI. rewrite forallb_forall in Hs. rewrite (Hs c HI) in Hc. discriminate. Qed.
Lemma split_plain c s : ~ In c s -> split c s = [s].
Proof. intros H. unfold split. rewrite split_go_plain by exact H. reflexivity. Qed.
Lemma split_go_head c s t cur : ~ In c s -> split_go c cur (s ++ c :: t) = (rev cur ++ s) :: split c t.
Proof.
  revert cur. induction s as [|a s IH]; intros cur H; cbn [app split_go].
  - rewrite eqb_refl, app_nil_r. reflexivity.
  - destruct (eqb_spec a c) as [->|_]; [exfalso; apply H; left; reflexivity|]. rewrite IH by (intros HI; apply H; right; exact HI).
    cbn [rev]. rewrite <- app_assoc. reflexivity.
Qed.
Lemma split_head c s t : ~ In c s -> split c (s ++ c :: t) = s :: split c t.
Proof. intros H. unfold split at 1. rewrite split_go_head by exact H. reflexivity. Qed.
Lemma take_while_app f s t : forallb f s = true -> match t with [] => true | a :: _ => negb (f a) end = true ->
  take_while f (s ++ t) = s /\ drop_while f (s ++ t) = t.
Proof.
  intros Hs Ht. induction s as [|a s IH]; cbn [app take_while drop_while].
  - destruct t as [|b t]; [split; reflexivity|]. cbn. apply negb_true_iff in Ht. rewrite Ht. split; reflexivity.
  - cbn [forallb] in Hs. apply andb_true_iff in Hs. destruct Hs as [-> Hs]. destruct (IH Hs) as [-> ->]. split; reflexivity.
Qed.

Lemma parse_asctime t : valid t -> d_micro t = 0 -> parse_default (date_text t ++ " "%char :: time_text t) = Ok t.
Proof.
  intros V H0. pose proof V as (Hy1 & Hy & Hm & Hd & Hh & Hmi & Hs & _).
  pose proof (month_days_bound (is_leap (d_year t)) (d_month t - 1)).
  unfold parse_default, date_text. change (str "/") with ["/"%char]. rewrite <- !app_assoc. cbn [app].
  assert (N1 : ~ In "/"%char (four (d_year t))) by (apply digits_no; [reflexivity|apply four_digits]).
  assert (N2 : ~ In "/"%char (two (d_month t))) by (apply digits_no; [reflexivity|apply two_digits]).
  assert (Nd : ~ In "/"%char (two (d_day t))) by (apply digits_no; [reflexivity|apply two_digits]).
  assert (N3 : ~ In "/"%char (time_text t)).
  { unfold time_text. change (str ":") with [":"%char]. intros HI. rewrite !in_app_iff in HI. cbn [In] in HI.
    assert (N4 : forall n, ~ In "/"%char (two n)) by (intros; apply digits_no; [reflexivity|apply two_digits]).
    destruct HI as [HI|[[HI|[]]|[HI|[[HI|[]]|HI]]]]; try discriminate; exact (N4 _ HI). }
  rewrite split_head by exact N1. rewrite split_head by exact N2.
  rewrite split_plain by (rewrite in_app_iff; cbn [In]; intros [HI|[HI|HI]]; [exact (Nd HI)|discriminate|exact (N3 HI)]).
  assert (Eb : match two (d_day t) ++ " "%char :: time_text t with a :: _ => eqb a " "%char | [] => false end = false).
  { cbn [two app]. apply eqb_neq. intros E. pose proof (numeral_digit (d_day t / 10)) as Hn. rewrite E in Hn. discriminate. }
  rewrite Eb. cbn zeta.
  destruct (take_while_app is_dec_digit (two (d_day t)) (" "%char :: time_text t) (two_digits _) eq_refl) as [E1 E2]. rewrite E1, E2.
  destruct (take_while_app is_space [" "%char] (time_text t) eq_refl) as [E3 E4].
  { cbn [time_text two app]. rewrite negb_true_iff. unfold is_space, code. rewrite numeral_code.
    set (k := d_hour t / 10 mod 10). pose proof (Nat.mod_upper_bound (d_hour t / 10) 10 ltac:(lia)) as Hk. fold k in Hk. clearbody k.
    do 10 (destruct k as [|k]; [reflexivity|]). lia. }
  cbn [app] in E3, E4. rewrite E3, E4. unfold time_text. change (str ":") with [":"%char]. cbn [app].
  assert (N5 : forall n, ~ In ":"%char (two n)) by (intros; apply digits_no; [reflexivity|apply two_digits]).
  rewrite !split_head by apply N5. rewrite split_plain by apply N5.
  assert (Ey : year_field (four (d_year t)) = Some (d_year t)).
  { unfold year_field. rewrite four_digits, four_value by exact Hy. reflexivity. }
  rewrite Ey, !field_two by lia.
  assert (Ed : day_field (two (d_day t)) = Some (d_day t)).
  { unfold day_field. cbn [two]. cbn [two app] in Eb. rewrite Eb. apply (field_two 1 31); lia. }
  rewrite Ed. replace (1 <=? d_year t) with true by (symmetry; apply Nat.leb_le; lia).
  rewrite (month_days_ok _ _ Hm). replace (d_day t <=? _) with true by (symmetry; apply Nat.leb_le; lia).
  destruct t; cbn in *. subst. reflexivity.
Qed.
