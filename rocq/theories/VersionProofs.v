From Verif Require Import Base LogModel VersionModel VersionSpec.
Local Open Scope string_scope.
Local Open Scope list_scope.
Local Open Scope nat_scope.

Lemma drop_while_all f s t : forallb f s = true -> drop_while f (s ++ t) = drop_while f t.
Proof. induction s as [|a s IH]; [reflexivity|]. cbn. destruct (f a); [exact IH|discriminate]. Qed.
Lemma drop_while_no f a s : f a = false -> drop_while f (a :: s) = a :: s.
Proof. intros H. cbn. rewrite H. reflexivity. Qed.
Lemma forallb_rev (f : ascii -> bool) s : forallb f (rev s) = forallb f s.
Proof. induction s as [|a s IH]; [reflexivity|]. cbn. rewrite forallb_app, IH. cbn. destruct (f a), (forallb f s); reflexivity. Qed.
(** Ends that are kept. *)
Definition kept (f : ascii -> bool) (s : pystr) : Prop := s <> [] /\ Forall (fun c => f c = false) s.
Lemma rstrip_is f s post : kept f s -> forallb f post = true -> rev (drop_while f (rev (s ++ post))) = s.
Proof.
  intros [Hn Hs] Hp. rewrite rev_app_distr, drop_while_all by (rewrite forallb_rev; exact Hp). destruct (rev s) as [|a t] eqn:E; [exfalso; apply Hn; rewrite <- (rev_involutive s), E; reflexivity|].
  rewrite drop_while_no; [rewrite <- E; apply rev_involutive|]. rewrite Forall_forall in Hs. apply Hs. apply in_rev. rewrite E. left. reflexivity.
Qed.
Lemma strip_is f s pre post : kept f s -> forallb f pre = true -> forallb f post = true -> strip_by f (pre ++ s ++ post) = s.
Proof.
  intros Hs Hp Hq. unfold strip_by. rewrite drop_while_all by exact Hp. destruct s as [|a s]; [destruct Hs; congruence|].
  rewrite <- app_comm_cons, drop_while_no by (destruct Hs as [_ Hs]; inversion Hs; assumption). rewrite app_comm_cons. apply rstrip_is; assumption.
Qed.

(** ** Characters of versions *)
Lemma dotted_chars ok s : dotted ok s -> s <> [] /\ Forall (fun c => ok c \/ c = "."%char) s.
Proof.
  assert (W : forall s, word ok s -> s <> [] /\ Forall (fun c => ok c \/ c = "."%char) s) by (intros t [A B]; split; [exact A|]; eapply Forall_impl; [|exact B]; auto).
  induction 1 as [s Hs|s t Hs Ht [_ IH]]; [apply W, Hs|]. destruct (W s Hs) as [A B]. split; [destruct s; [congruence|discriminate]|]. apply Forall_app. split; [exact B|]. constructor; [auto|exact IH].
Qed.
Lemma plus_code : nat_of_ascii "+"%char = 43. Proof. reflexivity. Qed.
Lemma dot_code : nat_of_ascii "."%char = 46. Proof. reflexivity. Qed.
Lemma release_kept r : release r -> kept is_space r.
Proof.
  intros H. apply dotted_chars in H as [Hn H]. split; [exact Hn|]. eapply Forall_impl; [|exact H]. intros c [Hc| ->]; [|reflexivity]. unfold digit in Hc. unfold is_space, between, code. lia.
Qed.
Lemma hex_kept s : s <> [] -> Forall lower_hex s -> kept bytes_space s.
Proof. intros Hn H. split; [exact Hn|]. eapply Forall_impl; [|exact H]. intros c Hc. unfold lower_hex, digit in Hc. unfold bytes_space, between, code. lia. Qed.
Lemma release_noplus r : release r -> ~ In "+"%char r.
Proof. intros H Hin. apply dotted_chars in H as [_ H]. rewrite Forall_forall in H. destruct (H _ Hin) as [Hc|Hc]; [|discriminate]. unfold digit in Hc. rewrite plus_code in Hc. lia. Qed.

Lemma version_is w r pre post : file_holds r pre post w -> VERSION w = r.
Proof. intros (E & Hr & Hp & Hq). unfold VERSION, strip. rewrite E. apply strip_is; auto using release_kept. Qed.
Lemma setup_is w r pre post : file_holds r pre post w -> (setup_version w = r <-> pre = []).
Proof.
  intros (E & Hr & Hp & Hq). unfold setup_version. rewrite E. pose proof (release_kept r Hr) as K. split.
  - intros H. destruct pre as [|a pre]; [reflexivity|]. exfalso. rewrite app_assoc, rev_app_distr, drop_while_all in H by (rewrite forallb_rev; exact Hq). rewrite rev_app_distr in H. destruct K as [Kn Ks]. destruct (rev r) as [|b t] eqn:Er; [apply Kn; rewrite <- (rev_involutive r), Er; reflexivity|].
    rewrite <- app_comm_cons, drop_while_no in H.
    + rewrite app_comm_cons, <- Er, <- rev_app_distr, rev_involutive in H. apply (f_equal (@length ascii)) in H. rewrite app_length in H. cbn in H. lia.
    + rewrite Forall_forall in Ks. apply Ks, in_rev. rewrite Er. left. reflexivity.
  - intros ->. cbn [app]. apply rstrip_is; assumption.
Qed.

(** ** What is returned *)
Lemma released_version w r pre post : file_holds r pre post w -> released w -> get_version_info w = Val r.
Proof.
  intros Hf H. pose proof (version_is w r pre post Hf) as V. unfold get_version_info, dirname. destruct H as [-> | H]; [cbn [negb]; rewrite V; reflexivity|].
  destruct (negb _); [rewrite V; reflexivity|]. unfold minimal_ext_cmd, dirname. unfold runs in H. destruct H as [-> | (rc & out & -> & H)]; [rewrite V; reflexivity|].
  destruct (Z.ltb_spec 0 rc); [rewrite V; reflexivity|]. destruct H as [H|H]; [lia|]. destruct out; [congruence|]. rewrite V. reflexivity.
Qed.
Lemma not_released w : ~ released w -> w_exists w (removelast (removelast (w_root w)) ++ [str ".git"]) = true /\ exists rc, (rc <= 0)%Z /\ runs w tags = Finished rc [].
Proof.
  unfold released. intros H. destruct (w_exists w _); [|exfalso; apply H; left; reflexivity]. split; [reflexivity|]. destruct (runs w tags) as [|rc out]; [exfalso; apply H; right; left; reflexivity|].
  exists rc. destruct (Z.leb_spec rc 0) as [Hr|Hr].
  - split; [exact Hr|]. destruct out; [reflexivity|]. exfalso. apply H. right. right. do 2 eexists. split; [reflexivity|]. right. discriminate.
  - exfalso. apply H. right. right. do 2 eexists. split; [reflexivity|]. left. exact Hr.
Qed.
Lemma development w r pre post g : file_holds r pre post w -> ~ released w -> git_version w = Val g -> get_version_info w = Val (r ++ str ".dev0+" ++ firstn 7 g).
Proof.
  intros Hf H Hg. destruct (not_released w H) as (He & rc & Hrc & Ht). unfold get_version_info, dirname. rewrite He. cbn [negb]. unfold minimal_ext_cmd, dirname. unfold runs in Ht. rewrite Ht. destruct (Z.ltb_spec 0 rc); [lia|]. rewrite Hg, (version_is w r pre post Hf). reflexivity.
Qed.
Lemma git_failed w : failed (runs w rev_parse) -> git_version w = Val (str "Unknown").
Proof. unfold runs, failed, git_version, minimal_ext_cmd, dirname. intros [-> | (rc & out & -> & H)]; [reflexivity|]. destruct (Z.ltb_spec 0 rc); [reflexivity|lia]. Qed.
Lemma git_commit w sha : commit_is sha (runs w rev_parse) -> git_version w = Val sha.
Proof.
  unfold runs, git_version, minimal_ext_cmd, dirname. intros (Hl & Hh & ->). cbn [Z.ltb Z.compare]. change (sha ++ [lf]) with ([] ++ sha ++ [lf]). rewrite strip_is; [|apply hex_kept; [intros ->; discriminate|exact Hh]|reflexivity|reflexivity].
  unfold decode_ascii. replace (forallb _ sha) with true; [reflexivity|]. symmetry. apply forallb_forall. intros c Hc. rewrite Forall_forall in Hh. specialize (Hh c Hc). unfold lower_hex, digit in Hh. unfold code. lia.
Qed.

(** ** Validity *)
Lemma release_valid r : release r -> valid_version r.
Proof. intros H. exists r, [], []. rewrite !app_nil_r. auto. Qed.
Lemma dev_valid r l : release r -> word (fun c => digit c \/ letter c) l -> valid_version (r ++ str ".dev0+" ++ l).
Proof.
  intros Hr Hl. exists r, (str ".dev" ++ ["0"%char]), ("+"%char :: l). split; [reflexivity|]. split; [exact Hr|]. split; right; [exists ["0"%char]|exists l]; split; auto; [|constructor; exact Hl].
  split; [discriminate|]. apply Forall_cons; [|apply Forall_nil]. unfold digit. cbn. lia.
Qed.
Lemma hex_word s : length s = 40 -> Forall lower_hex s -> word (fun c => digit c \/ letter c) (firstn 7 s).
Proof.
  intros Hl Hh. split; [destruct s; [discriminate|discriminate]|]. apply Forall_forall. intros c Hc. rewrite Forall_forall in Hh. assert (In c s) by (rewrite <- (firstn_skipn 7 s); apply in_or_app; auto). specialize (Hh c H). unfold lower_hex, letter, digit in *. lia.
Qed.
Lemma unknown_word : word (fun c => digit c \/ letter c) (firstn 7 (str "Unknown")).
Proof. split; [discriminate|]. repeat (apply Forall_cons; [right; unfold letter; cbn; lia|]). apply Forall_nil. Qed.
Lemma no_plus_end v u : valid_version v -> v <> u ++ ["+"%char].
Proof.
  intros (r & dev & loc & -> & Hr & Hd & Hl) E.
  destruct Hl as [-> | (l & Hl & ->)].
  - assert (In "+"%char (r ++ dev)) as Hin by (rewrite app_nil_r in E; rewrite E; apply in_or_app; right; left; reflexivity). apply in_app_or in Hin as [Hin|Hin]; [apply (release_noplus r Hr Hin)|].
    destruct Hd as [-> | (d & [_ Hd] & ->)]; [destruct Hin|]. apply in_app_or in Hin as [Hin|Hin]; [cbn in Hin; repeat (destruct Hin as [Hin|Hin]; [discriminate|]); destruct Hin|].
    rewrite Forall_forall in Hd. specialize (Hd _ Hin). unfold digit in Hd. rewrite plus_code in Hd. lia.
  - apply dotted_chars in Hl as [Hn Hl]. destruct (exists_last Hn) as (l' & c & ->). assert (c = "+"%char).
    { rewrite !app_assoc in E. change ("+"%char :: l' ++ [c]) with (("+"%char :: l') ++ [c]) in E. rewrite app_assoc in E. apply app_inj_tail in E. apply E. }
    subst c. apply Forall_app in Hl as [_ Hl]. inversion Hl as [|x y Hx _]. subst. unfold digit, letter in Hx. rewrite plus_code in Hx. destruct Hx as [Hx|Hx]; [lia|discriminate].
Qed.
Lemma split_plus (a a' b b' : pystr) : ~ In "+"%char a -> ~ In "+"%char a' -> a ++ "+"%char :: b = a' ++ "+"%char :: b' -> a = a' /\ b = b'.
Proof.
  revert a'. induction a as [|x a IH]; intros [|y a'] H H' E; cbn in *.
  - injection E. auto.
  - injection E as <- _. exfalso. auto.
  - injection E as -> _. exfalso. auto.
  - injection E as -> E. destruct (IH a' ltac:(tauto) ltac:(tauto) E). subst. auto.
Qed.
Lemma dev_noplus r : release r -> ~ In "+"%char (r ++ str ".dev0").
Proof. intros H Hin. apply in_app_or in Hin as [Hin|Hin]; [apply (release_noplus r H Hin)|]. cbn in Hin. repeat (destruct Hin as [Hin|Hin]; [discriminate|]). destruct Hin. Qed.
Lemma dev_split r l : r ++ str ".dev0+" ++ l = (r ++ str ".dev0") ++ "+"%char :: l.
Proof. rewrite <- app_assoc. reflexivity. Qed.
Lemma dev_inj r r' l l' : release r -> release r' -> r ++ str ".dev0+" ++ l = r' ++ str ".dev0+" ++ l' -> r = r' /\ l = l'.
Proof. intros H H' E. rewrite !dev_split in E. apply split_plus in E as [E ->]; auto using dev_noplus. split; [|reflexivity]. eapply app_inv_tail, E. Qed.
Lemma dev_not_release r r' l : release r' -> r ++ str ".dev0+" ++ l <> r'.
Proof. intros H E. apply (release_noplus r' H). rewrite <- E, dev_split. apply in_or_app. right. left. reflexivity. Qed.

(** ** The environment *)
Lemma env_get environ k : dget (minimal_env environ) k =
  if eqb k (str "LC_ALL") || eqb k (str "LANG") || eqb k (str "LANGUAGE") then Some (str "C")
  else if eqb k (str "PATH") || eqb k (str "SYSTEMROOT") then dget environ k else None.
Proof.
  unfold minimal_env. rewrite !dget_dset. destruct (eqb k (str "LC_ALL")); [reflexivity|]. destruct (eqb k (str "LANG")); [reflexivity|]. destruct (eqb k (str "LANGUAGE")); [reflexivity|]. cbn [orb fold_left].
  destruct (dget environ (str "SYSTEMROOT")) as [v|] eqn:E1, (dget environ (str "PATH")) as [u|] eqn:E2; rewrite ?dget_dset; cbn [dget];
  destruct (eqb_spec k (str "PATH")) as [EP|H1], (eqb_spec k (str "SYSTEMROOT")) as [ES|H2]; cbn [orb]; try reflexivity; try (rewrite EP in ES; vm_compute in ES; discriminate); try (rewrite EP; symmetry; exact E2); try (rewrite ES; symmetry; exact E1).
Qed.
Lemma env_same e e' : dget e (str "PATH") = dget e' (str "PATH") -> dget e (str "SYSTEMROOT") = dget e' (str "SYSTEMROOT") -> minimal_env e = minimal_env e'.
Proof. intros H1 H2. unfold minimal_env. cbn [fold_left]. rewrite H1, H2. reflexivity. Qed.
