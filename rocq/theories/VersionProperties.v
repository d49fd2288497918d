(** C82: the version of the package. *)
From Verif Require Import Base LogModel VersionModel VersionSpec VersionProofs.
Local Open Scope string_scope.
Local Open Scope list_scope.
Local Open Scope nat_scope.

(** Without a repository, when git fails, or when a tag points at the commit, the version
    is the release of the file. *)
Theorem C82_released w r pre post : file_holds r pre post w -> released w -> get_version_info w = Val r.
Proof. exact (released_version w r pre post). Qed.
Print Assumptions C82_released.

(** Otherwise it is a development version with the first seven digits of the commit, or
    with "Unknown" when git cannot tell the commit. *)
Theorem C82_development w r pre post : file_holds r pre post w -> ~ released w ->
  (forall sha, commit_is sha (runs w rev_parse) -> get_version_info w = Val (r ++ str ".dev0+" ++ firstn 7 sha)) /\
  (failed (runs w rev_parse) -> get_version_info w = Val (r ++ str ".dev0+Unknown")).
Proof. intros Hf H. split; [intros sha Hs; apply (development w r pre post sha Hf H), git_commit, Hs|intros Hs; apply (development w r pre post (str "Unknown") Hf H), git_failed, Hs]. Qed.
Print Assumptions C82_development.

(** If git either fails or tells the commit, a version is returned, and it is valid. *)
Theorem C82_valid w r pre post : file_holds r pre post w -> failed (runs w rev_parse) \/ (exists sha, commit_is sha (runs w rev_parse)) ->
  exists v, get_version_info w = Val v /\ valid_version v.
Proof.
  intros Hf Hg. assert (Hr : release r) by apply Hf. assert (D : released w \/ ~ released w).
  { unfold released. destruct (w_exists w _); [|left; left; reflexivity]. destruct (runs w tags) as [|rc out]; [left; right; left; reflexivity|]. destruct (Z.ltb_spec 0 rc); [left; right; right; eauto|]. destruct out as [|a out]; [|left; right; right; do 2 eexists; split; [reflexivity|right; discriminate]].
    right. intros [E|[E|(rc' & o & E & [E1|E1])]]; try discriminate; injection E as <- <-; [lia|congruence]. }
  destruct D as [D|D]; [exists r; split; [apply (released_version w r pre post Hf D)|apply release_valid, Hr]|].
  destruct (C82_development w r pre post Hf D) as [A B]. destruct Hg as [Hg|(sha & Hg)]; eexists; (split; [first [apply (B Hg)|apply (A sha Hg)]|]).
  - apply (dev_valid r _ Hr unknown_word).
  - apply dev_valid; [exact Hr|]. destruct Hg as (Hl & Hh & _). apply hex_word; assumption.
Qed.
Print Assumptions C82_valid.

(** Development versions tell the release and the digits of the commit, and are never the
    version of a release. *)
Theorem C82_distinct r r' l l' : release r -> release r' ->
  (r ++ str ".dev0+" ++ l = r' ++ str ".dev0+" ++ l' <-> r = r' /\ l = l') /\ r ++ str ".dev0+" ++ l <> r'.
Proof. intros H H'. split; [split; [apply dev_inj; assumption|intros [-> ->]; reflexivity]|apply dev_not_release, H']. Qed.
Print Assumptions C82_distinct.

(** A git killed by a signal counts as success, as its return code is negative: the version
    ends with "+" and is not valid. *)
Theorem C82_killed_refuted w r pre post rc : file_holds r pre post w -> ~ released w -> (rc < 0)%Z -> runs w rev_parse = Finished rc [] ->
  get_version_info w = Val (r ++ str ".dev0+") /\ ~ valid_version (r ++ str ".dev0+").
Proof.
  intros Hf H Hrc Hg. split.
  - rewrite (development w r pre post [] Hf H); [rewrite app_nil_r; reflexivity|]. unfold git_version, minimal_ext_cmd, dirname. unfold runs in Hg. rewrite Hg. destruct (Z.ltb_spec 0 rc); [lia|reflexivity].
  - intros V. apply (no_plus_end _ (r ++ str ".dev0") V). rewrite <- app_assoc. reflexivity.
Qed.
Print Assumptions C82_killed_refuted.

(** git sees the language C, PATH and SYSTEMROOT of the caller, and nothing else; so that
    the version depends on no other variable. *)
Theorem C82_environment environ k : dget (minimal_env environ) k =
  if mem k [str "LC_ALL"; str "LANG"; str "LANGUAGE"] then Some (str "C") else if mem k [str "PATH"; str "SYSTEMROOT"] then dget environ k else None.
Proof. rewrite env_get. cbn [mem existsb]. rewrite !orb_false_r, orb_assoc. reflexivity. Qed.
Print Assumptions C82_environment.
Theorem C82_other_variables w environ : dget (w_environ w) (str "PATH") = dget environ (str "PATH") -> dget (w_environ w) (str "SYSTEMROOT") = dget environ (str "SYSTEMROOT") ->
  get_version_info {| w_file := w_file w; w_environ := environ; w_root := w_root w; w_exists := w_exists w; w_run := w_run w |} = get_version_info w.
Proof. intros H1 H2. unfold get_version_info, git_version, minimal_ext_cmd, VERSION. cbn [w_file w_environ w_root w_exists w_run]. rewrite <- (env_same _ _ H1 H2). reflexivity. Qed.
Print Assumptions C82_other_variables.

(** setup.py gives the same release exactly when the file does not begin with blanks. *)
Theorem C82_setup w r pre post : file_holds r pre post w -> (setup_version w = VERSION w <-> pre = []).
Proof. intros Hf. rewrite (version_is w r pre post Hf). exact (setup_is w r pre post Hf). Qed.
Print Assumptions C82_setup.

(** The file of the commit, in a repository without tag, at some commit; with a working git,
    and with one that is killed. *)
Definition ex_sha : pystr := str "0123456789abcdef0123456789abcdef01234567".
Definition ex_world (p : proc) : world :=
  {| w_file := str "0.6.0" ++ [lf]; w_environ := [(str "PATH", str "/bin"); (str "LANG", str "fr")]; w_root := [str "src"; str "qiskit"; str "ignis"];
     w_exists := fun p => eqb p [str "src"; str ".git"];
     w_run := fun cmd env cwd => if eqb (dget env (str "LANG")) (Some (str "C")) && eqb cwd [str "src"; str "qiskit"] then if eqb cmd tags then Finished 0 [] else if eqb cmd rev_parse then p else NotStarted else NotStarted |}.
Example C82_example : let w := ex_world (Finished 0 (ex_sha ++ [lf])) in
  file_holds (str "0.6.0") [] [lf] w /\ ~ released w /\ commit_is ex_sha (runs w rev_parse) /\ get_version_info w = Val (str "0.6.0.dev0+0123456") /\
  get_version_info (ex_world (Finished (-9) [])) = Val (str "0.6.0.dev0+").
Proof.
  cbv zeta. split; [|split; [|split; [|split; reflexivity]]].
  - split; [reflexivity|]. split; [|split; reflexivity]. assert (W : forall c, digit c -> word digit [c]) by (intros c Hc; split; [discriminate|apply Forall_cons; [exact Hc|apply Forall_nil]]). change (str "0.6.0") with (["0"%char] ++ "."%char :: (["6"%char] ++ "."%char :: ["0"%char])).
    apply dot_more; [apply W; unfold digit; cbn; lia|]. apply dot_more; [apply W; unfold digit; cbn; lia|]. apply dot_one, W. unfold digit; cbn; lia.
  - intros [E|[E|(rc & o & E & [E1|E1])]]; vm_compute in E; try discriminate; injection E as <- <-; [lia|congruence].
  - split; [reflexivity|]. split; [|reflexivity]. apply Forall_forall. intros c Hc. cbn in Hc. unfold lower_hex, digit. repeat (destruct Hc as [<-|Hc]; [cbn; lia|]). destruct Hc.
Qed.
