(** The configuration file. *)
From Coq Require Import Decimal DecimalString.
From Verif Require Import Base PyStr ResultFacts LogModel LogSpec LogTimeProofs LogReadProofs.
Local Open Scope string_scope.
Local Open Scope list_scope.
Local Open Scope nat_scope.

Lemma digits_acc u : forall acc, fold_left (fun n c => 10 * n + (code c - 48)) (list_ascii_of_string (NilEmpty.string_of_uint u)) acc = Nat.of_uint_acc u acc.
Proof.
  induction u; intros acc; cbn [NilEmpty.string_of_uint list_ascii_of_string fold_left Nat.of_uint_acc]; [reflexivity|..]; rewrite IHu; f_equal; unfold code; rewrite Nat.tail_mul_spec; vm_compute (nat_of_ascii _); cbn; lia.
Qed.
Lemma digits_dec n : digits_value (dec n) = n.
Proof.
  unfold digits_value, dec. pose proof (to_uint_nz n) as Hn. rewrite <- (DecimalNat.Unsigned.of_to n) at 2. unfold Nat.of_uint.
  destruct (Nat.to_uint n) eqn:E; [congruence|..]; rewrite <- digits_acc; reflexivity.
Qed.
Lemma isdigit_dec n : isdigit (dec n) = true /\ int_digits (dec n) = Ok n.
Proof.
  assert (Hd : forallb is_dec_digit (dec n) = true) by (apply forallb_forall; intros c Hc; pose proof (dec_digits n) as D; rewrite Forall_forall in D; exact (D c Hc)).
  assert (Hne : eqb (dec n) [] = false) by (apply eqb_neq, dec_nonempty). unfold isdigit, int_digits. rewrite Hne, Hd, digits_dec. split; [|reflexivity]. cbn [negb andb].
  apply forallb_forall. intros c Hc. rewrite forallb_forall in Hd. specialize (Hd c Hc). rewrite digit_iff in Hd. unfold is_digit, code. rewrite Hd. reflexivity.
Qed.

(** Text that survives the reading of a configuration line. *)
Lemma drop_while_id f s : match s with [] => true | a :: _ => negb (f a) end = true -> drop_while f s = s.
Proof. destruct s as [|a s]; [reflexivity|]. cbn. intros H. apply negb_true_iff in H. rewrite H. reflexivity. Qed.
Lemma strip_ok s t : (forall a r, s = a :: r -> ~ blank a) -> (forall a r, s = r ++ [a] -> ~ blank a) -> forallb is_space t = true -> s <> [] -> strip (t ++ s) = s.
Proof.
  intros H1 H2 Ht Hne. unfold strip, strip_by. destruct (take_while_app is_space t s Ht) as [_ ->].
  - destruct s as [|a r]; [reflexivity|]. apply negb_true_iff. destruct (is_space a) eqn:E; [destruct (H1 a r eq_refl); apply space_blank, E|reflexivity].
  - rewrite drop_while_id; [apply rev_involutive|]. destruct (rev s) as [|a r] eqn:E; [reflexivity|]. apply negb_true_iff. destruct (is_space a) eqn:Ea; [|reflexivity].
    exfalso. apply (f_equal (@rev ascii)) in E. rewrite rev_involutive in E. cbn [rev] in E. apply (H2 a (rev r) E), space_blank, Ea.
Qed.
Lemma before_char_id c s : ~ In c s -> before_char c s = s.
Proof.
  unfold before_char. induction s as [|a s IH]; intros H; [reflexivity|]. cbn [take_while]. destruct (eqb_spec a c) as [->|_]; [destruct H; left; reflexivity|].
  cbn [negb]. rewrite IH; [reflexivity|]. intros HI. apply H. right. exact HI.
Qed.
Lemma lower_id s : Forall (fun c => ~ upper c) s -> lower s = s.
Proof.
  unfold lower. induction 1 as [|c s Hc _ IH]; [reflexivity|]. cbn [map]. rewrite IH. f_equal. unfold lower_char, code. destruct (between 65 90 (nat_of_ascii c) || between 192 214 (nat_of_ascii c) || between 216 222 (nat_of_ascii c)) eqn:E; [|reflexivity].
  destruct Hc. unfold upper. rewrite !orb_true_iff, !between_iff in E. lia.
Qed.
Lemma config_line_ok d k v : plain_text k -> plain_text v -> config_line d (k ++ ":"%char :: " "%char :: v) = dset d k v.
Proof.
  intros (Kne & Kc & Kh & Kl & Kr & K1 & K2 & Ku) (Vne & Vc & Vh & Vl & Vr & V1 & V2 & Vu). unfold config_line. rewrite before_char_id.
  2: { rewrite in_app_iff. cbn [In]. intros [H|[H|[H|H]]]; [exact (Kh H)|discriminate|discriminate|exact (Vh H)]. }
  rewrite split_head by exact Kc. rewrite split_plain by (cbn [In]; intros [H|H]; [discriminate|exact (Vc H)]).
  change (strip k) with (strip ([] ++ k)). rewrite strip_ok by (assumption || reflexivity). change (" "%char :: v) with ([" "%char] ++ v). rewrite strip_ok by (assumption || reflexivity).
  rewrite !lower_id by assumption. reflexivity.
Qed.
Lemma plain_dec n : plain_text (dec n).
Proof.
  pose proof (dec_digits n) as D. rewrite Forall_forall in D.
  assert (NB : forall c, In c (dec n) -> ~ blank c) by (intros c Hc Hb; apply space_blank in Hb; specialize (D c Hc); assert (E : is_dec_digit c && is_space c = false) by (clear; destruct c as [[] [] [] [] [] [] [] []]; reflexivity); rewrite D, Hb in E; discriminate).
  split; [apply dec_nonempty|]. split; [apply dec_not_digit; reflexivity|]. split; [apply dec_not_digit; reflexivity|]. split; [apply dec_not_digit; reflexivity|]. split; [apply dec_not_digit; reflexivity|].
  split; [intros a r E; apply NB; rewrite E; left; reflexivity|]. split; [intros a r E; apply NB; rewrite E; apply in_app_iff; right; left; reflexivity|].
  apply Forall_forall. intros c Hc Hu. specialize (D c Hc). rewrite digit_iff, between_iff in D. unfold upper in Hu. lia.
Qed.
Lemma plain_b s : (negb (eqb s []) && negb (mem ":"%char s) && negb (mem "#"%char s) && negb (mem lf s) && negb (mem cr s) && forallb (fun c => negb (is_space c)) s && eqb (lower s) s)%bool = true ->
  forallb (fun c => eqb (lower_char c) c) s = true -> plain_text s.
Proof.
  rewrite !andb_true_iff, !negb_true_iff. intros ((((((Hne & Hc) & Hh) & Hl) & Hr) & Hs) & _) Hu. apply eqb_neq in Hne. apply mem_not_In in Hc, Hh, Hl, Hr.
  apply no_blank_nospace in Hs. unfold no_blank in Hs. rewrite Forall_forall in Hs.
  split; [exact Hne|]. split; [exact Hc|]. split; [exact Hh|]. split; [exact Hl|]. split; [exact Hr|].
  split; [intros a r E; apply Hs; rewrite E; left; reflexivity|]. split; [intros a r E; apply Hs; rewrite E; apply in_app_iff; right; left; reflexivity|].
  apply Forall_forall. intros c Hc' U. rewrite forallb_forall in Hu. specialize (Hu c Hc'). apply eqb_true in Hu. unfold lower_char, code in Hu. unfold upper in U.
  assert (E : between 65 90 (nat_of_ascii c) || between 192 214 (nat_of_ascii c) || between 216 222 (nat_of_ascii c) = true) by (rewrite !orb_true_iff, !between_iff; lia).
  rewrite E in Hu. apply (f_equal nat_of_ascii) in Hu. rewrite nat_ascii_embedding in Hu by lia. lia.
Qed.
Lemma setting_line k v : setting k v = (k ++ ":"%char :: " "%char :: v) ++ [lf].
Proof. unfold setting. rewrite <- app_assoc. reflexivity. Qed.
Lemma plain_one_line k v : plain_text k -> plain_text v -> one_line (k ++ ":"%char :: " "%char :: v).
Proof.
  intros (_ & _ & _ & Kl & Kr & _) (_ & _ & _ & Vl & Vr & _). split; rewrite in_app_iff; cbn [In]; intros [H|[H|[H|H]]]; try discriminate; contradiction.
Qed.
Lemma load_settings (kvs : list (pystr * pystr)) : Forall (fun kv => plain_text (fst kv) /\ plain_text (snd kv)) kvs ->
  load_config (Some (concat (map (fun kv => setting (fst kv) (snd kv)) kvs))) = (fold_left (fun d kv => dset d (fst kv) (snd kv)) kvs [], true).
Proof.
  intros H. unfold load_config. f_equal. rewrite (map_ext _ (fun kv => (fst kv ++ ":"%char :: " "%char :: snd kv) ++ [lf])) by (intros; apply setting_line).
  rewrite <- (map_map (fun kv => fst kv ++ ":"%char :: " "%char :: snd kv) (fun b => b ++ [lf])). rewrite lines_ok.
  2: { apply Forall_map. eapply Forall_impl; [|exact H]. intros kv [K V]. apply plain_one_line; assumption. }
  generalize (@nil (pystr * pystr)) as d. induction H as [|kv kvs [K V] _ IH]; intros d; [reflexivity|]. cbn [map fold_left]. rewrite config_line_ok by assumption. apply IH.
Qed.
Lemma initialize_ok on file size rotations : plain_text file ->
  initialize (Some (config_text on file size rotations)) = Ok {| c_exists := true; c_enabled := on; c_file := file; c_max := size; c_rot := rotations |}.
Proof.
  intros Hf. set (kvs := [(str "file_logging", if on then str "true" else str "false"); (str "log_file", file); (str "max_size", dec size); (str "max_rotations", dec rotations)]).
  assert (E : config_text on file size rotations = concat (map (fun kv => setting (fst kv) (snd kv)) kvs)).
  { unfold config_text, kvs. cbn [map concat fst snd]. rewrite app_nil_r. reflexivity. }
  unfold initialize. rewrite E, load_settings.
  - unfold kvs. cbn [fold_left fst snd]. unfold int_setting. rewrite !dget_dset.
    replace (eqb (str "max_size") (str "max_rotations")) with false by reflexivity. replace (eqb (str "max_size") (str "max_size")) with true by reflexivity.
    replace (eqb (str "max_rotations") (str "max_rotations")) with true by reflexivity.
    replace (eqb (str "file_logging") (str "max_rotations")) with false by reflexivity. replace (eqb (str "file_logging") (str "max_size")) with false by reflexivity.
    replace (eqb (str "file_logging") (str "log_file")) with false by reflexivity. replace (eqb (str "file_logging") (str "file_logging")) with true by reflexivity.
    replace (eqb (str "log_file") (str "max_rotations")) with false by reflexivity. replace (eqb (str "log_file") (str "max_size")) with false by reflexivity.
    replace (eqb (str "log_file") (str "log_file")) with true by reflexivity.
    destruct (isdigit_dec size) as [-> ->]. destruct (isdigit_dec rotations) as [-> ->]. cbn [bind]. destruct on; reflexivity.
  - unfold kvs. constructor; [split; [apply plain_b; reflexivity|destruct on; apply plain_b; reflexivity]|]. constructor; [split; [apply plain_b; reflexivity|exact Hf]|].
    constructor; [split; [apply plain_b; reflexivity|apply plain_dec]|]. constructor; [split; [apply plain_b; reflexivity|apply plain_dec]|]. constructor.
Qed.
