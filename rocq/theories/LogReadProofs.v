(** The reader on files of entries. *)
From Verif Require Import Base PyStr ResultFacts LogModel LogSpec LogTimeProofs.
Local Open Scope string_scope.
Local Open Scope list_scope.
Local Open Scope nat_scope.

(** ** Lines and words *)
Lemma space_blank c : is_space c = true <-> blank c.
Proof.
  unfold blank. assert (E : is_space c = existsb (Nat.eqb (nat_of_ascii c)) [9; 10; 11; 12; 13; 28; 29; 30; 31; 32; 133; 160]) by (destruct c as [[] [] [] [] [] [] [] []]; reflexivity).
  rewrite E, existsb_exists. split; [intros (x & Hx & Ex)|intros H]; [apply Nat.eqb_eq in Ex; rewrite Ex; exact Hx|]. eexists. split; [exact H|apply Nat.eqb_refl].
Qed.
Lemma no_space_b s : no_blank s -> forallb (fun c => negb (is_space c)) s = true.
Proof.
  intros H. apply forallb_forall. intros c Hc. apply negb_true_iff. destruct (is_space c) eqn:E; [|reflexivity]. exfalso.
  unfold no_blank in H. rewrite Forall_forall in H. apply (H c Hc), space_blank, E.
Qed.
Lemma no_blank_app s t : no_blank s -> no_blank t -> no_blank (s ++ t).
Proof. intros. apply Forall_app. split; assumption. Qed.
Lemma no_blank_nospace s : forallb (fun c => negb (is_space c)) s = true -> no_blank s.
Proof. intros H. apply Forall_forall. intros c Hc Hb. rewrite forallb_forall in H. specialize (H c Hc). apply space_blank in Hb. rewrite Hb in H. discriminate. Qed.

Lemma words_go_word cur s c t : no_blank s -> is_space c = true -> (cur <> [] \/ s <> []) -> words_go cur (s ++ c :: t) = (rev cur ++ s) :: words t.
Proof.
  intros Hs Hc. revert cur. induction s as [|a s IH]; intros cur Hne; cbn [app words_go].
  - rewrite Hc. destruct (eqb_spec cur []) as [->|_]; [destruct Hne; congruence|]. rewrite app_nil_r. reflexivity.
  - pose proof (Forall_inv Hs) as Ha. pose proof (Forall_inv_tail Hs) as Hs'. destruct (is_space a) eqn:E; [exfalso; apply Ha, space_blank, E|].
    rewrite IH; [|exact Hs'|left; discriminate]. cbn [rev]. rewrite <- app_assoc. reflexivity.
Qed.
Lemma words_word s c t : no_blank s -> s <> [] -> is_space c = true -> words (s ++ c :: t) = s :: words t.
Proof. intros. unfold words at 1. rewrite words_go_word; auto. Qed.

Lemma newlines_id s : ~ In cr s -> newlines s = s.
Proof.
  induction s as [|a s IH]; intros H; [reflexivity|]. cbn [newlines]. destruct (eqb_spec a cr) as [->|_]; [exfalso; apply H; left; reflexivity|].
  rewrite IH; [reflexivity|]. intros HI. apply H. right. exact HI.
Qed.
Definition one_line (b : pystr) : Prop := ~ In lf b /\ ~ In cr b.
Lemma split_lines bs : Forall one_line bs -> split lf (concat (map (fun b => b ++ [lf]) bs)) = bs ++ [[]].
Proof.
  induction 1 as [|b bs [Hb _] _ IH]; [reflexivity|]. cbn [map concat]. rewrite <- app_assoc. cbn [app]. rewrite split_head by exact Hb. rewrite IH. reflexivity.
Qed.
Lemma lines_ok bs : Forall one_line bs -> lines (concat (map (fun b => b ++ [lf]) bs)) = bs.
Proof.
  intros H. unfold lines. rewrite newlines_id.
  - rewrite split_lines by exact H. cbn zeta. rewrite last_last, removelast_last. rewrite eqb_refl. reflexivity.
  - intros HI. apply in_concat in HI. destruct HI as (x & Hx & HI). apply in_map_iff in Hx. destruct Hx as (b & <- & Hb).
    rewrite Forall_forall in H. destruct (H b Hb) as [_ Hc]. apply in_app_iff in HI. destruct HI as [HI|[HI|[]]]; [exact (Hc HI)|discriminate].
Qed.

(** ** Terms *)
Definition good_pair (kv : pystr * pystr) : Prop := no_blank (fst kv) /\ no_blank (snd kv) /\ plain_key (fst kv).
Lemma shown_term kv : shown kv = term kv.
Proof.
  unfold shown, term. change (str "'") with [quote]. change (str "':'") with [quote; ":"%char; quote].
  cbn [app]. reflexivity.
Qed.
Lemma shown_no_blank kv : good_pair kv -> no_blank (shown kv).
Proof.
  intros (Hk & Hv & _). unfold shown. apply no_blank_app; [apply no_blank_nospace; reflexivity|]. apply no_blank_app; [exact Hk|]. apply no_blank_app; [apply no_blank_nospace; reflexivity|].
  apply no_blank_app; [exact Hv|apply no_blank_nospace; reflexivity].
Qed.
Lemma shown_ne kv : shown kv <> [].
Proof. rewrite shown_term. discriminate. Qed.
Lemma drop_quote k t : (forall s, k <> quote :: s) -> k <> [] -> drop_while (eqb quote) (quote :: k ++ t) = k ++ t.
Proof.
  intros H Hne. destruct k as [|a k]; [congruence|]. cbn [app drop_while]. rewrite eqb_refl. destruct (eqb_spec quote a) as [<-|_]; [exfalso; exact (H k eq_refl)|reflexivity].
Qed.
Lemma term_key_ok kv : plain_key (fst kv) -> term_key (term kv) = fst kv.
Proof.
  destruct kv as [k v]. unfold term_key, term. cbn [fst snd]. intros (Hc & Hs & He).
  change (quote :: k ++ quote :: ":"%char :: quote :: v ++ [quote]) with ((quote :: k) ++ [quote] ++ (":"%char :: quote :: v ++ [quote])). rewrite app_assoc.
  rewrite split_head.
  2: { intros HI. apply in_app_iff in HI. destruct HI as [[E|HI]|[E|[]]]; [discriminate|exact (Hc HI)|discriminate]. }
  cbn [hd]. unfold strip_char, strip_by. destruct k as [|a k]; [reflexivity|].
  change ((quote :: a :: k) ++ [quote]) with (quote :: (a :: k) ++ [quote]). rewrite drop_quote by (exact Hs || discriminate).
  rewrite rev_app_distr. change (rev [quote]) with [quote]. cbn [app].
  rewrite <- (app_nil_r (rev (a :: k))). rewrite drop_quote.
  - rewrite app_nil_r. apply rev_involutive.
  - intros s E. apply (f_equal (@rev ascii)) in E. rewrite rev_involutive in E. cbn [rev] in E. exact (He _ E).
  - intros E. apply (f_equal (@rev ascii)) in E. rewrite rev_involutive in E. discriminate.
Qed.

(** ** Rows *)
Definition body (e : entry) : pystr :=
  date_text (fst e) ++ str " " ++ time_text (fst e) ++ str " ignis_logging " ++ concat (map (fun kv => shown kv ++ str " ") (snd e)).
Lemma line_of_body e : line_of e = body e ++ [lf].
Proof. unfold line_of, body. rewrite <- !app_assoc. reflexivity. Qed.
Lemma words_terms kvs : Forall good_pair kvs -> words (concat (map (fun kv => shown kv ++ str " ") kvs)) = map shown kvs.
Proof.
  induction 1 as [|kv kvs Hkv _ IH]; [reflexivity|]. cbn [map concat]. rewrite <- app_assoc. change (str " ") with [" "%char] at 1. cbn [app].
  rewrite words_word; [|apply shown_no_blank, Hkv|apply shown_ne|reflexivity]. rewrite IH. reflexivity.
Qed.
Lemma digits_no_blank s : forallb is_dec_digit s = true -> no_blank s.
Proof.
  intros H. apply no_blank_nospace, forallb_forall. intros c Hc. rewrite forallb_forall in H. specialize (H c Hc). assert (E : is_dec_digit c && is_space c = false) by (clear; destruct c as [[] [] [] [] [] [] [] []]; reflexivity).
  rewrite H in E. cbn [andb] in E. rewrite E. reflexivity.
Qed.
Lemma date_no_blank t : no_blank (date_text t).
Proof.
  unfold date_text. apply no_blank_app; [apply digits_no_blank, four_digits|]. apply no_blank_app; [apply no_blank_nospace; reflexivity|].
  apply no_blank_app; [apply digits_no_blank, two_digits|]. apply no_blank_app; [apply no_blank_nospace; reflexivity|apply digits_no_blank, two_digits].
Qed.
Lemma time_no_blank t : no_blank (time_text t).
Proof.
  unfold time_text. apply no_blank_app; [apply digits_no_blank, two_digits|]. apply no_blank_app; [apply no_blank_nospace; reflexivity|].
  apply no_blank_app; [apply digits_no_blank, two_digits|]. apply no_blank_app; [apply no_blank_nospace; reflexivity|apply digits_no_blank, two_digits].
Qed.
Lemma words_body e : Forall good_pair (snd e) -> words (body e) = date_text (fst e) :: time_text (fst e) :: str "ignis_logging" :: map shown (snd e).
Proof.
  intros H. unfold body. change (str " ignis_logging ") with (" "%char :: str "ignis_logging" ++ [" "%char]). change (str " ") with [" "%char] at 1. cbn [app].
  rewrite words_word; [|apply date_no_blank|discriminate|reflexivity].
  rewrite words_word; [|apply time_no_blank|discriminate|reflexivity]. rewrite <- app_assoc. cbn [app].
  rewrite words_word; [|apply no_blank_nospace; reflexivity|discriminate|reflexivity]. rewrite words_terms by exact H. reflexivity.
Qed.
Lemma one_line_no_blank s : no_blank s -> one_line s.
Proof.
  intros H. unfold no_blank in H. rewrite Forall_forall in H. split; intros HI; apply (H _ HI), space_blank; reflexivity.
Qed.
Lemma one_line_app s t : one_line s -> one_line t -> one_line (s ++ t).
Proof. intros [A B] [A' B']. split; rewrite in_app_iff; tauto. Qed.
Lemma blank_line s : mem lf s = false -> mem cr s = false -> one_line s.
Proof. intros A B. split; apply mem_not_In; assumption. Qed.
Lemma body_one_line e : Forall good_pair (snd e) -> one_line (body e).
Proof.
  intros H. unfold body. apply one_line_app; [apply one_line_no_blank, date_no_blank|]. apply one_line_app; [apply blank_line; reflexivity|].
  apply one_line_app; [apply one_line_no_blank, time_no_blank|]. apply one_line_app; [apply blank_line; reflexivity|].
  induction H as [|kv kvs Hkv _ IH]; [split; intros []|]. cbn [map concat]. apply one_line_app; [|exact IH]. apply one_line_app; [apply one_line_no_blank, shown_no_blank, Hkv|].
  apply blank_line; reflexivity.
Qed.
Lemma good_pairs e : good_entry e -> Forall good_pair (snd e).
Proof. intros (_ & _ & _ & H). exact H. Qed.

Lemma filter_map_keys keys kvs : Forall good_pair kvs -> filter_keys (map shown kvs) keys = map shown (filter (asked (Some keys)) kvs).
Proof.
  induction 1 as [|kv kvs Hkv _ IH]; [reflexivity|]. unfold filter_keys in *. cbn [map filter]. rewrite IH, shown_term.
  rewrite term_key_ok by apply Hkv. cbn [asked]. destruct (mem (fst kv) keys); [cbn [map]; rewrite (shown_term kv); reflexivity|reflexivity].
Qed.
Lemma existsb_filter_nil {A} (f : A -> bool) l : existsb f l = negb match filter f l with [] => true | _ => false end.
Proof. induction l as [|a l IH]; [reflexivity|]. cbn [existsb filter]. destruct (f a); [reflexivity|exact IH]. Qed.
Lemma filter_true {A} (l : list A) : filter (fun _ => true) l = l.
Proof. induction l as [|a l IH]; [reflexivity|]. cbn [filter]. rewrite IH. reflexivity. Qed.

Section Read.
Variable other : pystr -> pystr -> result dt.
Variables from to : date_arg.
Variables f u : option dt.
Hypothesis Hf : date_of other from = Ok f.
Hypothesis Hu : date_of other to = Ok u.
Hypothesis Vf : forall t, f = Some t -> valid t.
Hypothesis Vu : forall t, u = Some t -> valid t.

Lemma filter_date_ok t : valid t -> d_micro t = 0 -> filter_by_datetime other [date_text t; time_text t] from to = Ok (negb (within f u t)).
Proof.
  intros V H0. unfold filter_by_datetime. rewrite Hf, Hu. cbn [bind]. unfold index_e. cbn [nth_error bind]. rewrite parse_asctime by assumption. cbn [bind].
  unfold within. destruct f as [f'|] eqn:Ef, u as [u'|] eqn:Eu; try reflexivity; f_equal; rewrite ?dt_ltb_micros by auto; rewrite ?orb_false_r, ?orb_false_l, ?andb_true_r, ?negb_andb; reflexivity.
Qed.
Lemma read_line_ok keys e : good_entry e ->
  read_line other keys from to (body e) = Ok (if within f u (fst e) && existsb (asked keys) (snd e) then [row_of keys e] else []).
Proof.
  intros G. pose proof (good_pairs e G) as Hp. destruct G as (V & H0 & _ & _). unfold read_line. rewrite words_body by exact Hp. cbn [firstn skipn].
  rewrite filter_date_ok by assumption. cbn [bind]. destruct (within f u (fst e)); cbn [negb andb]; [|reflexivity].
  rewrite existsb_filter_nil. unfold row_of. destruct keys as [ks|].
  - rewrite filter_map_keys by exact Hp. destruct (filter (asked (Some ks)) (snd e)) as [|kv l]; reflexivity.
  - change (filter (asked None) (snd e)) with (filter (fun _ : pystr * pystr => true) (snd e)). rewrite filter_true. destruct (snd e) as [|kv l]; reflexivity.
Qed.
Lemma read_lines_ok keys es : Forall good_entry es ->
  exists rows, mapM (read_line other keys from to) (lines (file_of es)) = Ok rows /\ concat rows = rows_of keys f u es.
Proof.
  intros H. unfold file_of. rewrite (map_ext line_of (fun e => body e ++ [lf]) line_of_body).
  rewrite <- (map_map body (fun b => b ++ [lf])). rewrite lines_ok.
  2: { apply Forall_map. eapply Forall_impl; [|exact H]. intros e G. apply body_one_line, good_pairs, G. }
  induction H as [|e es G _ IH]; [exists []; split; reflexivity|]. destruct IH as (rows & E & Ec). cbn [map mapM]. rewrite read_line_ok by exact G. cbn [bind].
  rewrite E. cbn [bind]. eexists. split; [reflexivity|]. cbn [concat]. rewrite Ec. unfold rows_of. cbn [filter]. destruct (_ && _); reflexivity.
Qed.
Lemma read_values_ok keys ess : Forall (Forall good_entry) ess -> read_values other (map file_of ess) keys from to = Ok (rows_of keys f u (concat ess)).
Proof.
  intros H. unfold read_values.
  assert (A : exists rows, mapM (fun f => mapM (read_line other keys from to) (lines f)) (map file_of ess) = Ok rows /\ concat (concat rows) = rows_of keys f u (concat ess)).
  { induction H as [|es ess G _ IH]; [exists []; split; reflexivity|]. destruct IH as (rows & E & Ec). destruct (read_lines_ok keys es G) as (r & Er & Erc).
    cbn [map mapM]. rewrite Er. cbn [bind]. rewrite E. cbn [bind]. eexists. split; [reflexivity|]. cbn [concat]. rewrite concat_app, Ec, Erc. unfold rows_of. rewrite filter_app, map_app. reflexivity. }
  destruct A as (rows & -> & E). cbn [bind]. rewrite E. reflexivity.
Qed.
End Read.
