(** Property C52: log files and their reader, qiskit/ignis/logging. *)
From Verif Require Import Base PyStr ResultFacts LogModel LogSpec LogTimeProofs LogReadProofs LogFileProofs LogRunProofs LogConfProofs LogParseProofs.
Local Open Scope string_scope.
Local Open Scope list_scope.
Local Open Scope nat_scope.

(** * Reading *)

(** Files of entries without blanks: the reader returns, for the entries in the
    closed interval and in their order, the date, the time and the pairs of the
    keys asked for; entries without such a key are left out. *)
Theorem C52_read_partial : forall other from to f u, date_of other from = Ok f -> date_of other to = Ok u ->
  (forall t, f = Some t -> valid t) -> (forall t, u = Some t -> valid t) ->
  forall keys files, Forall (Forall good_entry) files ->
  read_values other (map file_of files) keys from to = Ok (rows_of keys f u (concat files)).
Proof. exact read_values_ok. Qed.
Print Assumptions C52_read_partial.

(** The order of dates is that of the time since the beginning of year 1. *)
Theorem C52_order : forall t u, valid t -> valid u -> dt_ltb t u = negb (N.leb (micros u) (micros t)).
Proof. exact dt_ltb_micros. Qed.
Print Assumptions C52_order.

(** A written date is read back. *)
Theorem C52_date : forall t, valid t -> d_micro t = 0 -> 1000 <= d_year t -> parse_default (asctime t) = Ok t.
Proof.
  intros t V H0 Hy. unfold asctime. rewrite date_text_ok, time_text_ok by assumption. apply parse_asctime; assumption.
Qed.
Print Assumptions C52_date.

(** * Histories *)

(** From a process without log files: the rows read back are those of the entries
    logged by enabled loggers, in order; after rotation, of the latest of them.
    With rotation only one logger may write. *)
Theorem C52_history_partial : forall cfg fs ops, NoDup (dkeys (f_names fs)) -> (forall p, is_log_file (c_file cfg) p = true -> ~ In p (dkeys (f_names fs))) ->
  obtained [] ops -> (c_max cfg = 0 \/ c_rot cfg = 0 \/ one_writer ops) -> Forall good_entry (logged (c_enabled cfg) [] ops) ->
  exists s dropped kept, run cfg (fresh fs) ops = Ok s /\ logged (c_enabled cfg) [] ops = dropped ++ kept /\
    (c_max cfg = 0 \/ c_rot cfg = 0 -> dropped = []) /\
    forall other from to f u keys, date_of other from = Ok f -> date_of other to = Ok u ->
      (forall t, f = Some t -> valid t) -> (forall t, u = Some t -> valid t) ->
      read_log other cfg s keys from to = Ok (rows_of keys f u kept).
Proof.
  intros cfg fs ops Hn Hf Ho Hw Hg.
  destruct (history_ok cfg fs ops Hn Hf Ho Hw) as (s & files & dropped & Er & Eh & _ & Ec & H0 & _).
  { eapply Forall_impl; [|exact Hg]. intros e (V & _ & Hy & _). split; assumption. }
  exists s, dropped, (concat files). split; [exact Er|]. split; [exact Eh|]. split; [intros H; apply H0, H|].
  intros other from to f u keys F U VF VU. unfold read_log. rewrite Ec. apply read_values_ok; try assumption.
  rewrite Eh in Hg. apply Forall_app in Hg. destruct Hg as [_ Hg]. clear -Hg. induction files as [|es files IH]; [constructor|]. cbn [concat] in Hg. apply Forall_app in Hg. destruct Hg as [A B]. constructor; [exact A|apply IH, B].
Qed.
Print Assumptions C52_history_partial.

(** The files: at most the given number of rotations, each below the given size
    unless it has a single row, and nothing is dropped before all are in use. *)
Theorem C52_rotation : forall cfg fs ops, NoDup (dkeys (f_names fs)) -> (forall p, is_log_file (c_file cfg) p = true -> ~ In p (dkeys (f_names fs))) ->
  obtained [] ops -> (c_max cfg = 0 \/ c_rot cfg = 0 \/ one_writer ops) -> Forall (fun e => valid (fst e) /\ 1000 <= d_year (fst e)) (logged (c_enabled cfg) [] ops) ->
  exists s files dropped, run cfg (fresh fs) ops = Ok s /\ logged (c_enabled cfg) [] ops = dropped ++ concat files /\
    map fst (get_log_files (c_file cfg) (s_fs s)) = rev (map (generation (c_file cfg)) (seq 0 (length files))) /\
    map (fun e => f_content (s_fs s) (snd e)) (get_log_files (c_file cfg) (s_fs s)) = map file_of files /\
    (c_max cfg = 0 \/ c_rot cfg = 0 -> length files <= 1 /\ dropped = []) /\
    (0 < c_max cfg -> 0 < c_rot cfg -> length files <= S (c_rot cfg) /\ (dropped <> [] -> length files = S (c_rot cfg)) /\
       Forall (fun es => length (file_of es) < c_max cfg \/ length es <= 1) files).
Proof. exact history_ok. Qed.
Print Assumptions C52_rotation.

(** Rows go to the file only, when no logger is obtained twice. *)
Theorem C52_console_partial : forall cfg fs ops s, obtained [] ops -> NoDup (gets ops) -> run cfg (fresh fs) ops = Ok s -> s_console s = [].
Proof.
  intros cfg fs ops s Ho Hd E. change [] with (s_console (fresh fs)). eapply (run_console cfg ops (fresh fs) []); try eassumption.
  - intros n. reflexivity.
  - intros n [].
  - intros n H. exfalso. apply H. reflexivity.
Qed.
Print Assumptions C52_console_partial.

(** The configuration file. *)
Theorem C52_config_partial : forall on file size rotations, plain_text file ->
  initialize (Some (config_text on file size rotations)) = Ok {| c_exists := true; c_enabled := on; c_file := file; c_max := size; c_rot := rotations |}.
Proof. exact initialize_ok. Qed.
Print Assumptions C52_config_partial.

(** A date given as text is accepted exactly when it is written with slashes and colons
    and exists; it then is that date. *)
Theorem C52_parse : forall s t, parse_default s = Ok t <-> valid t /\ d_micro t = 0 /\ written s t.
Proof. exact parse_iff. Qed.
Print Assumptions C52_parse.

(** Settings in any order: the last value of each counts, and missing ones have
    defaults. *)
Theorem C52_settings : forall kvs size rotations, Forall (fun kv => plain_text (fst kv) /\ plain_text (snd kv)) kvs ->
  reads (last_of kvs (str "max_size")) size -> reads (last_of kvs (str "max_rotations")) rotations ->
  initialize (Some (concat (map (fun kv => setting (fst kv) (snd kv)) kvs))) =
  Ok {| c_exists := true; c_enabled := eqb (last_of kvs (str "file_logging")) (Some (str "true"));
        c_file := match last_of kvs (str "log_file") with Some f => f | None => str "ignis.log" end; c_max := size; c_rot := rotations |}.
Proof. exact settings_ok. Qed.
Print Assumptions C52_settings.
Example C52_settings_case : let kvs := [(str "file_logging", str "true"); (str "max_size", str "10"); (str "max_size", str "1k")] in
  Forall (fun kv => plain_text (fst kv) /\ plain_text (snd kv)) kvs /\ reads (last_of kvs (str "max_size")) 0 /\ reads (last_of kvs (str "max_rotations")) 0.
Proof.
  intros kvs. split; [|split].
  - repeat (constructor; [split; apply plain_b; reflexivity|]). constructor.
  - right. split; [reflexivity|]. exists "k"%char. split; [right; left; reflexivity|]. split; [vm_compute; lia|vm_compute; intuition discriminate].
  - reflexivity.
Qed.
Example C52_parse_case : parse_default (str "2020/2/ 1  9:05:00") = Ok {| d_year := 2020; d_month := 2; d_day := 1; d_hour := 9; d_min := 5; d_sec := 0; d_micro := 0 |} /\ parse_default (str "2021/02/29 09:05:00") = Err ValueError.
Proof. split; reflexivity. Qed.

(** ** Cases *)
Definition e52_t (d h : nat) : dt := {| d_year := 2020; d_month := 2; d_day := d; d_hour := h; d_min := 5; d_sec := 0; d_micro := 0 |}.
Definition e52_other (s fmt : pystr) : result dt := Err ValueError.
Definition e52_fs : fsys := {| f_names := [(str "other.txt", 0)]; f_data := [(0, (0, str "x"))]; f_clock := 1 |}.
Definition e52_cfg (m r : nat) : config := {| c_exists := true; c_enabled := true; c_file := str "ignis.log"; c_max := m; c_rot := r |}.
Definition e52_ops : list op := [OGet (str "a"); OLog (str "a") (e52_t 1 9) [(str "t1", str "0.02"); (str "q", str "3")]; OLog (str "a") (e52_t 29 10) [(str "t1", str "0.03")];
  ODisable (str "a"); OLog (str "a") (e52_t 29 11) [(str "t1", str "0.04")]; OEnable (str "a"); OLog (str "a") (e52_t 29 12) [(str "q", str "4")]].
Example C52_case : (do s <- run (e52_cfg 0 0) (fresh e52_fs) e52_ops;
    read_log e52_other (e52_cfg 0 0) s (Some [str "t1"]) (DStr (str "2020/2/01 9:05:00") None) (DObj (e52_t 29 10))) =
  Ok [[str "2020/02/01"; str "09:05:00"; str "'t1':'0.02'"]; [str "2020/02/29"; str "10:05:00"; str "'t1':'0.03'"]].
Proof. vm_compute. reflexivity. Qed.
Example C52_case_rotated : (do s <- run (e52_cfg 50 1) (fresh e52_fs) e52_ops;
    do rows <- read_log e52_other (e52_cfg 50 1) s None DNone DNone; Ok (map fst (get_log_files (str "ignis.log") (s_fs s)), rows)) =
  Ok ([str "ignis.log.1"; str "ignis.log"], [[str "2020/02/29"; str "10:05:00"; str "'t1':'0.03'"]; [str "2020/02/29"; str "12:05:00"; str "'q':'4'"]]).
Proof. vm_compute. reflexivity. Qed.
Lemma e52_valid d h : 1 <= d <= 29 -> h < 24 -> valid (e52_t d h).
Proof. intros Hd Hh. repeat split; cbn [e52_t d_year d_month d_day d_hour d_min d_sec d_micro]; try (vm_compute; lia || reflexivity); try lia. Qed.
Example C52_case_meets : obtained [] e52_ops /\ one_writer e52_ops /\ NoDup (gets e52_ops) /\ Forall good_entry (logged true [] e52_ops) /\
  forall p, is_log_file (str "ignis.log") p = true -> ~ In p (dkeys (f_names e52_fs)).
Proof.
  split; [cbn; tauto|]. split; [exists (str "a"); intros n t kvs HI; unfold e52_ops in HI; repeat (destruct HI as [E|HI]; [try discriminate E; injection E as <- _ _; reflexivity|]); destruct HI|]. split; [vm_compute; repeat constructor; intros []|]. split.
  - assert (P : forall k v, forallb (fun c => negb (is_space c) && negb (eqb c ":"%char) && negb (eqb c quote)) k = true -> forallb (fun c => negb (is_space c)) v = true -> no_blank k /\ no_blank v /\ plain_key k).
    { intros k v Hk Hv. rewrite forallb_forall in Hk. split; [apply no_blank_nospace, forallb_forall; intros c Hc; specialize (Hk c Hc); apply andb_true_iff in Hk; destruct Hk as [Hk _]; apply andb_true_iff in Hk; apply Hk|].
      split; [apply no_blank_nospace, Hv|]. split; [|split].
      - intros HI. specialize (Hk _ HI). discriminate.
      - intros s E. specialize (Hk quote). rewrite E in Hk. discriminate Hk. left. reflexivity.
      - intros s E. specialize (Hk quote). rewrite E in Hk. discriminate Hk. apply in_app_iff. right. left. reflexivity. }
    replace (logged true [] e52_ops) with [(e52_t 1 9, [(str "t1", str "0.02"); (str "q", str "3")]); (e52_t 29 10, [(str "t1", str "0.03")]); (e52_t 29 12, [(str "q", str "4")])] by reflexivity.
    repeat (constructor; [split; [apply e52_valid; lia|split; [reflexivity|split; [cbn [fst d_year e52_t]; lia|cbn [snd]; repeat (apply Forall_cons; [apply P; reflexivity|]); apply Forall_nil]]]|]). constructor.
  - intros p Hp [E|[]]. subst p. discriminate Hp.
Qed.
Example C52_config_case : initialize (Some (str "# logging" ++ lf :: str "File_Logging : True # on" ++ lf :: str "max_size:  100")) =
  Ok {| c_exists := true; c_enabled := true; c_file := str "ignis.log"; c_max := 100; c_rot := 0 |}.
Proof. vm_compute. reflexivity. Qed.

(** ** Where the claim fails *)

(** The example of the documentation, [qubits=[1,2,4]]: Python prints the list
    with blanks, and only its first part is returned for the key. *)
Theorem C52_read_refuted : exists cfg fs ops s, run cfg (fresh fs) ops = Ok s /\ ops = [OGet (str "a"); OLog (str "a") (e52_t 1 9) [(str "qubits", str "[1, 2, 4]")]] /\
  read_log e52_other cfg s (Some [str "qubits"]) DNone DNone = Ok [[str "2020/02/01"; str "09:05:00"; str "'qubits':'[1,"]] /\
  read_log e52_other cfg s None DNone DNone = Ok [[str "2020/02/01"; str "09:05:00"; str "'qubits':'[1,"; str "2,"; str "4]'"]].
Proof. exists (e52_cfg 0 0), e52_fs. eexists _, _. split; [|split; [reflexivity|]]; [vm_compute; reflexivity|]. split; vm_compute; reflexivity. Qed.
Print Assumptions C52_read_refuted.

(** A value with a line feed makes every later reading with dates fail. *)
Theorem C52_line_refuted : exists s, run (e52_cfg 0 0) (fresh e52_fs) [OGet (str "a"); OLog (str "a") (e52_t 1 9) [(str "v", str "1" ++ lf :: str "2")]] = Ok s /\
  read_log e52_other (e52_cfg 0 0) s None (DObj (e52_t 1 0)) DNone = Err IndexError.
Proof. eexists. split; vm_compute; reflexivity. Qed.
Print Assumptions C52_line_refuted.

(** Two loggers with rotation: the second keeps writing to the renamed file.  Its
    row is read in the wrong place, and once that file has been removed it is lost
    although older rows are kept. *)
Definition e52_long : pystr := str "0123456789012345".
Definition e52_two : list op := [OGet (str "a"); OGet (str "b"); OLog (str "b") (e52_t 1 1) [(str "k", str "1")]; OLog (str "a") (e52_t 1 2) [(str "k", e52_long)]].
Theorem C52_sequence_refuted : exists s, run (e52_cfg 100 1) (fresh e52_fs) (e52_two ++ [OLog (str "b") (e52_t 1 3) [(str "k", str "3")]]) = Ok s /\
  read_log e52_other (e52_cfg 100 1) s None DNone DNone = Ok [[str "2020/02/01"; str "02:05:00"; (str "'k':'" ++ e52_long ++ str "'")%list];
    [str "2020/02/01"; str "01:05:00"; str "'k':'1'"]; [str "2020/02/01"; str "03:05:00"; str "'k':'3'"]].
Proof. eexists. split; vm_compute; reflexivity. Qed.
Print Assumptions C52_sequence_refuted.
Theorem C52_rotation_refuted : exists s, run (e52_cfg 100 1) (fresh e52_fs) (e52_two ++ [OLog (str "a") (e52_t 1 3) [(str "k", e52_long)]; OLog (str "b") (e52_t 1 4) [(str "k", str "4")]]) = Ok s /\
  read_log e52_other (e52_cfg 100 1) s None DNone DNone = Ok [[str "2020/02/01"; str "02:05:00"; (str "'k':'" ++ e52_long ++ str "'")%list]; [str "2020/02/01"; str "03:05:00"; (str "'k':'" ++ e52_long ++ str "'")%list]].
Proof. eexists. split; vm_compute; reflexivity. Qed.
Print Assumptions C52_rotation_refuted.

(** A maximal size without rotations has no effect. *)
Theorem C52_size_refuted : exists s, run (e52_cfg 60 0) (fresh e52_fs) e52_ops = Ok s /\
  map (fun e => length (f_content (s_fs s) (snd e))) (get_log_files (str "ignis.log") (s_fs s)) = [145].
Proof. eexists. split; vm_compute; reflexivity. Qed.
Print Assumptions C52_size_refuted.

(** A logger obtained twice: rows are printed as well. *)
Theorem C52_console_refuted : exists s, run (e52_cfg 0 0) (fresh e52_fs) [OGet (str "a"); OGet (str "a"); OLog (str "a") (e52_t 1 9) [(str "k", str "1")]] = Ok s /\
  s_console s = [(0, str "'k':'1' ")].
Proof. eexists. split; vm_compute; reflexivity. Qed.
Print Assumptions C52_console_refuted.

(** Paths are changed to lower case and end at a colon. *)
Theorem C52_config_refuted : (do c <- initialize (Some (config_text true (str "/home/Ann/Log.txt") 0 0)); Ok (c_file c)) = Ok (str "/home/ann/log.txt") /\
  (do c <- initialize (Some (config_text true (str "c:/ignis.log") 0 0)); Ok (c_file c)) = Ok (str "c").
Proof. split; vm_compute; reflexivity. Qed.
Print Assumptions C52_config_refuted.

(** Files of other programs are taken for log files: the dot before the number
    stands for any character. *)
Theorem C52_files_refuted : is_log_file (str "ignis.log") (str "ignis.log_2020") = true /\ is_log_file (str "ignis.log") (str "ignis.log.2020") = true /\ is_log_file (str "ignis.log") (str "ignis.log.old") = false.
Proof. repeat split. Qed.
Print Assumptions C52_files_refuted.
