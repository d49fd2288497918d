(** Model of qiskit/ignis/logging/ignis_logging.py, with the part of Python's
    logging, datetime and file handling that it uses.

    Simplifications.  Characters are the first 256 code points; in files each
    takes one byte (as for ASCII).  A value is given as its str().  The clock of
    the file system never shows the same modification time twice.  The path of
    the log file has no characters that are special in a glob pattern or in a
    regular expression, except dots.  Handlers of parent loggers, threads and
    other processes are not modelled.  RotatingFileHandler is that of Python
    3.6-3.8, the versions supported by the package (setup.py:73-75). *)
From Verif Require Import Base PyStr.
Local Open Scope string_scope.
Local Open Scope list_scope.
Local Open Scope nat_scope.

Definition option_eqb {A} `{Eqb A} (x y : option A) : bool :=
  match x, y with Some a, Some b => eqb a b | None, None => true | _, _ => false end.
#[export] Instance option_Eqb {A} `{Eqb A} : Eqb (option A).
Proof.
  refine {| eqb := option_eqb |}. intros [a|] [b|]; cbn; try (constructor; congruence). destruct (eqb_spec a b); constructor; congruence.
Defined.

(** ** Strings *)
Definition lf : ascii := "010"%char.
Definition cr : ascii := "013"%char.
Definition quote : ascii := "'"%char.
Definition code (c : ascii) : nat := nat_of_ascii c.
Definition between (a b n : nat) : bool := (a <=? n) && (n <=? b).

(** [str.isspace] of a character. *)
Definition is_space (c : ascii) : bool :=
  let n := code c in between 9 13 n || between 28 32 n || (n =? 133) || (n =? 160).
Fixpoint take_while (f : ascii -> bool) (s : pystr) : pystr :=
  match s with [] => [] | a :: s' => if f a then a :: take_while f s' else [] end.
Fixpoint drop_while (f : ascii -> bool) (s : pystr) : pystr :=
  match s with [] => [] | a :: s' => if f a then drop_while f s' else s end.
(** [s.strip()] and [s.strip(c)]. *)
Definition strip_by (f : ascii -> bool) (s : pystr) : pystr := rev (drop_while f (rev (drop_while f s))).
Definition strip (s : pystr) : pystr := strip_by is_space s.
Definition strip_char (c : ascii) (s : pystr) : pystr := strip_by (eqb c) s.
(** [s.lower()]. *)
Definition lower_char (c : ascii) : ascii :=
  let n := code c in if between 65 90 n || between 192 214 n || between 216 222 n then ascii_of_nat (n + 32) else c.
Definition lower (s : pystr) : pystr := map lower_char s.
(** [s.isdigit()]: superscript digits are digits, too. *)
Definition is_digit (c : ascii) : bool := let n := code c in between 48 57 n || (n =? 178) || (n =? 179) || (n =? 185).
Definition isdigit (s : pystr) : bool := negb (eqb s []) && forallb is_digit s.
(** [int(s)] of a string of digits, leading zeros allowed. *)
Definition digits_value (s : pystr) : nat := fold_left (fun n c => 10 * n + (code c - 48)) s 0.
Definition int_digits (s : pystr) : result nat := if negb (eqb s []) && forallb is_dec_digit s then Ok (digits_value s) else Err ValueError.
(** [s.split()]: the words; [cur] is the reversed beginning of a word. *)
Fixpoint words_go (cur s : pystr) : list pystr :=
  match s with
  | [] => if eqb cur [] then [] else [rev cur]
  | a :: s' => if is_space a then (if eqb cur [] then words_go [] s' else rev cur :: words_go [] s') else words_go (a :: cur) s'
  end.
Definition words (s : pystr) : list pystr := words_go [] s.
(** The lines of a text file without their ends; both carriage return and line
    feed end a line. *)
Fixpoint newlines (s : pystr) : pystr :=
  match s with
  | [] => []
  | a :: s' => if eqb a cr then match s' with b :: _ => if eqb b lf then newlines s' else lf :: newlines s' | [] => [lf] end
               else a :: newlines s'
  end.
Definition lines (s : pystr) : list pystr :=
  let l := split lf (newlines s) in if eqb (last l []) [] then removelast l else l.

(** ** Configuration *)
Record config := { c_exists : bool; c_enabled : bool; c_file : pystr; c_max : nat; c_rot : nat }.

(** ignis_logging.py:163-187 [_load_config_file]; the argument is the content of
    the file if there is one. *)
Definition before_char (c : ascii) (s : pystr) : pystr := take_while (fun a => negb (eqb a c)) s.
Definition config_line (d : dict pystr pystr) (line : pystr) : dict pystr pystr :=
  match split ":"%char (before_char "#"%char line) with
  | k :: v :: _ => dset d (lower (strip k)) (lower (strip v))
  | _ => d
  end.
Definition load_config (content : option pystr) : dict pystr pystr * bool :=
  match content with
  | None => ([], false)
  | Some s => (fold_left config_line (lines s) [], true)
  end.
(** ignis_logging.py:189-207 [_initialize]. *)
Definition int_setting (d : dict pystr pystr) (k : pystr) : result nat :=
  match dget d k with
  | Some v => if isdigit v then int_digits v else Ok 0
  | None => Ok 0
  end.
Definition initialize (content : option pystr) : result config :=
  let '(d, ex) := load_config content in
  do m <- int_setting d (str "max_size");
  do r <- int_setting d (str "max_rotations");
  Ok {| c_exists := ex; c_enabled := eqb (dget d (str "file_logging")) (Some (str "true"));
        c_file := match dget d (str "log_file") with Some f => f | None => str "ignis.log" end;
        c_max := m; c_rot := r |}.

(** ** Dates *)
Record dt := { d_year : nat; d_month : nat; d_day : nat; d_hour : nat; d_min : nat; d_sec : nat; d_micro : nat }.
Definition pad (w n : nat) : pystr := repeat "0"%char (w - length (dec n)) ++ dec n.
(** The two words of [time.strftime('%Y/%m/%d %H:%M:%S')]. *)
Definition date_str (t : dt) : pystr := pad 4 (d_year t) ++ "/"%char :: pad 2 (d_month t) ++ "/"%char :: pad 2 (d_day t).
Definition time_str (t : dt) : pystr := pad 2 (d_hour t) ++ ":"%char :: pad 2 (d_min t) ++ ":"%char :: pad 2 (d_sec t).
Definition asctime (t : dt) : pystr := date_str t ++ " "%char :: time_str t.

Definition leap (y : nat) : bool := (y mod 4 =? 0) && (negb (y mod 100 =? 0) || (y mod 400 =? 0)).
Definition days_in_month (y m : nat) : nat :=
  if m =? 2 then (if leap y then 29 else 28) else if mem m [4; 6; 9; 11] then 30 else 31.
(** The pieces of the regular expression of [datetime.strptime]: one or two
    digits with a value in a range. *)
Definition field (lo hi : nat) (s : pystr) : option nat :=
  if between 1 2 (length s) && forallb is_dec_digit s && between lo hi (digits_value s) then Some (digits_value s) else None.
Definition day_field (s : pystr) : option nat :=
  match s with
  | a :: s' => if eqb a " "%char then (if length s' =? 1 then field 1 9 s' else None) else field 1 31 s
  | [] => None
  end.
Definition year_field (s : pystr) : option nat := if (length s =? 4) && forallb is_dec_digit s then Some (digits_value s) else None.
(** [datetime.strptime(s, '%Y/%m/%d %H:%M:%S')]. *)
Definition parse_default (s : pystr) : result dt :=
  match split "/"%char s with
  | [y; m; r] =>
    let blank := match r with a :: _ => eqb a " "%char | [] => false end in
    let r1 := if blank then tl r else r in
    let ds := take_while is_dec_digit r1 in
    let r2 := drop_while is_dec_digit r1 in
    let sp := take_while is_space r2 in
    match split ":"%char (drop_while is_space r2) with
    | [h; mi; se] =>
      match year_field y, field 1 12 m, day_field ((if blank then [" "%char] else []) ++ ds), field 0 23 h, field 0 59 mi, field 0 59 se with
      | Some y, Some m, Some d, Some h, Some mi, Some se =>
        if negb (eqb sp []) && (1 <=? y) && (d <=? days_in_month y m)
        then Ok {| d_year := y; d_month := m; d_day := d; d_hour := h; d_min := mi; d_sec := se; d_micro := 0 |} else Err ValueError
      | _, _, _, _, _, _ => Err ValueError
      end
    | _ => Err ValueError
    end
  | _ => Err ValueError
  end.
Definition default_fmt : pystr := str "%Y/%m/%d %H:%M:%S".

(** Comparison of datetime objects without time zones. *)
Fixpoint lex_ltb (a b : list nat) : bool :=
  match a, b with
  | x :: a', y :: b' => (x <? y) || ((x =? y) && lex_ltb a' b')
  | _, _ => false
  end.
Definition fields (t : dt) : list nat := [d_year t; d_month t; d_day t; d_hour t; d_min t; d_sec t; d_micro t].
Definition dt_ltb (a b : dt) : bool := lex_ltb (fields a) (fields b).

(** ** The reader *)
Section Reader.
(** [datetime.strptime] for other formats. *)
Variable strptime_other : pystr -> pystr -> result dt.

Inductive date_arg := DNone | DObj (t : dt) | DStr (s : pystr) (fmt : option pystr).
Definition strptime (s fmt : pystr) : result dt := if eqb fmt default_fmt then parse_default s else strptime_other s fmt.
Definition date_of (a : date_arg) : result (option dt) :=
  match a with
  | DNone => Ok None
  | DObj t => Ok (Some t)
  | DStr s fmt => do t <- strptime s (match fmt with Some f => f | None => default_fmt end); Ok (Some t)
  end.
(** ignis_logging.py:415-465 [_filter_by_datetime]. *)
Definition filter_by_datetime (row : list pystr) (from to : date_arg) : result bool :=
  do f <- date_of from;
  do t <- date_of to;
  match f, t with
  | None, None => Ok false
  | _, _ =>
    do a <- index_e row 0;
    do b <- index_e row 1;
    do r <- parse_default (a ++ " "%char :: b);
    Ok (match f with Some f => dt_ltb r f | None => false end || match t with Some t => dt_ltb t r | None => false end)
  end.
(** ignis_logging.py:394-413 [_filter_keys]. *)
Definition term_key (kv : pystr) : pystr := strip_char quote (hd [] (split ":"%char kv)).
Definition filter_keys (kvs keys : list pystr) : list pystr := filter (fun kv => mem (term_key kv) keys) kvs.
(** ignis_logging.py:370-390, one line: no row, or a row. *)
Definition read_line (keys : option (list pystr)) (from to : date_arg) (line : pystr) : result (list (list pystr)) :=
  let terms := words line in
  let date_time := firstn 2 terms in
  do out <- filter_by_datetime date_time from to;
  if out : bool then Ok []
  else let kvs := match keys with Some ks => filter_keys (skipn 3 terms) ks | None => skipn 3 terms end in
       Ok (if eqb kvs [] then [] else [date_time ++ kvs]).
(** ignis_logging.py:332-392 [read_values]; the files are given by their content. *)
Definition read_values (files : list pystr) (keys : option (list pystr)) (from to : date_arg) : result (list (list pystr)) :=
  do rows <- mapM (fun f => mapM (read_line keys from to) (lines f)) files;
  Ok (concat (concat rows)).
End Reader.

(** ** Files *)
(** Names, and for every file its modification time and its content. *)
Record fsys := { f_names : dict pystr nat; f_data : dict nat (nat * pystr); f_clock : nat }.
Definition f_exists (fs : fsys) (p : pystr) : bool := dmem (f_names fs) p.
Definition f_content (fs : fsys) (i : nat) : pystr := match dget (f_data fs) i with Some (_, s) => s | None => [] end.
Definition f_mtime (fs : fsys) (i : nat) : nat := match dget (f_data fs) i with Some (t, _) => t | None => 0 end.
(** [open(p, 'a')]; new files are numbered by the clock. *)
Definition f_open (fs : fsys) (p : pystr) : fsys * nat :=
  match dget (f_names fs) p with
  | Some i => (fs, i)
  | None => let i := f_clock fs in
            ({| f_names := dset (f_names fs) p i; f_data := dset (f_data fs) i (f_clock fs, []); f_clock := S (f_clock fs) |}, i)
  end.
Definition f_write (fs : fsys) (i : nat) (s : pystr) : fsys :=
  {| f_names := f_names fs; f_data := dset (f_data fs) i (f_clock fs, f_content fs i ++ s); f_clock := S (f_clock fs) |}.
(** [os.remove(b)] if it exists and [os.rename(a, b)]. *)
Definition f_rename (fs : fsys) (a b : pystr) : fsys :=
  match dget (f_names fs) a with
  | Some i => {| f_names := filter (fun e => negb (eqb (fst e) a) && negb (eqb (fst e) b)) (f_names fs) ++ [(b, i)]; f_data := f_data fs; f_clock := f_clock fs |}
  | None => fs
  end.

(** [RotatingFileHandler.doRollover]. *)
Definition backup (base : pystr) (i : nat) : pystr := base ++ "."%char :: dec i.
Definition roll_step (base : pystr) (fs : fsys) (i : nat) : fsys :=
  if f_exists fs (backup base i) then f_rename fs (backup base i) (backup base (S i)) else fs.
Definition rollover (base : pystr) (count : nat) (fs : fsys) : fsys * nat :=
  f_open (if count =? 0 then fs else f_rename (fold_left (roll_step base) (rev (seq 1 (count - 1))) fs) base (backup base 1)) base.
(** [RotatingFileHandler.emit]. *)
Definition emit (cfg : config) (fs : fsys) (i : nat) (row : pystr) : fsys * nat :=
  let msg := row ++ [lf] in
  let '(fs, i) := if (0 <? c_max cfg) && (c_max cfg <=? length (f_content fs i) + length msg)
                  then rollover (c_file cfg) (c_rot cfg) fs else (fs, i) in
  (f_write fs i msg, i).

(** ignis_logging.py:309-330 [get_log_files]: the regular expression is the path,
    followed by nothing or by any character and digits. *)
Definition dollar (f : pystr -> bool) (s : pystr) : bool := f s || (eqb (last s "x"%char) lf && f (removelast s)).
Definition suffix_ok (s : pystr) : bool :=
  match s with [] => true | a :: ds => negb (eqb a lf) && negb (eqb ds []) && forallb is_dec_digit ds end.
Definition is_log_file (base p : pystr) : bool :=
  starts base p && let r := skipn (length base) p in negb (mem "/"%char r) && dollar suffix_ok r.
Fixpoint insert_by (key : nat -> nat) (e : pystr * nat) (l : list (pystr * nat)) : list (pystr * nat) :=
  match l with
  | [] => [e]
  | e' :: l' => if key (snd e) <? key (snd e') then e :: l else e' :: insert_by key e l'
  end.
Definition sort_by (key : nat -> nat) (l : list (pystr * nat)) : list (pystr * nat) := fold_left (fun acc e => insert_by key e acc) l [].
Definition get_log_files (base : pystr) (fs : fsys) : list (pystr * nat) :=
  sort_by (f_mtime fs) (filter (fun e => is_log_file base (fst e)) (f_names fs)).

(** ** Loggers *)
Record logger := { l_enabled : bool; l_conf : bool; l_warned : bool; l_file : option nat; l_stream : option nat; l_handlers : list (option nat) }.
Definition new_logger : logger := {| l_enabled := false; l_conf := false; l_warned := false; l_file := None; l_stream := None; l_handlers := [] |}.
Record system := { s_fs : fsys; s_loggers : dict pystr logger; s_next : nat; s_console : list (nat * pystr); s_warnings : list pystr }.
Definition get_lg (s : system) (n : pystr) : logger := match dget (s_loggers s) n with Some l => l | None => new_logger end.
Definition set_lg (s : system) (n : pystr) (l : logger) : system :=
  {| s_fs := s_fs s; s_loggers := dset (s_loggers s) n l; s_next := s_next s; s_console := s_console s; s_warnings := s_warnings s |}.

(** [Logger.addHandler] and [Logger.removeHandler]. *)
Definition add_handler (h : option nat) (l : list (option nat)) : list (option nat) := if mem h l then l else l ++ [h].
Definition remove_handler (h : option nat) (l : list (option nat)) : list (option nat) := filter (fun x => negb (eqb x h)) l.

(** ignis_logging.py:96-98: the text of a row. *)
Definition term (kv : pystr * pystr) : pystr := quote :: fst kv ++ quote :: ":"%char :: quote :: snd kv ++ [quote].
Definition message (kvs : list (pystr * pystr)) : pystr := concat (map (fun kv => term kv ++ [" "%char]) kvs).
(** ignis_logging.py:254-258: the formatter. *)
Definition log_row (t : dt) (kvs : list (pystr * pystr)) : pystr := asctime t ++ str " ignis_logging " ++ message kvs.

Inductive op :=
| OGet (name : pystr)
| OEnable (name : pystr)
| ODisable (name : pystr)
| OLog (name : pystr) (t : dt) (kvs : list (pystr * pystr)).

(** ignis_logging.py:222-239, 262-280 [get_logger], and 54-65 [configure]. *)
Definition do_get (cfg : config) (s : system) (n : pystr) : system :=
  let l := get_lg s n in
  let h := Some (s_next s) in
  let s := set_lg s n {| l_enabled := l_enabled l || c_enabled cfg; l_conf := c_exists cfg; l_warned := l_warned l; l_file := l_file l;
                         l_stream := h; l_handlers := add_handler h (l_handlers l) |} in
  {| s_fs := s_fs s; s_loggers := s_loggers s; s_next := S (s_next s); s_console := s_console s; s_warnings := s_warnings s |}.
(** ignis_logging.py:106-118. *)
Definition do_enable (s : system) (n : pystr) (b : bool) : system :=
  let l := get_lg s n in
  set_lg s n {| l_enabled := b; l_conf := l_conf l; l_warned := l_warned l; l_file := l_file l; l_stream := l_stream l; l_handlers := l_handlers l |}.
(** ignis_logging.py:67-104 [log_to_file].  A logger that was enabled without
    [get_logger] has no stream handler and gets None as a handler, which fails
    once it is not taken out again. *)
Definition disabled_msg (l : logger) : pystr := str "File logging is disabled" ++ if l_conf l then [] else str ": no config file".
Definition do_log (cfg : config) (s : system) (n : pystr) (t : dt) (kvs : list (pystr * pystr)) : result system :=
  let l := get_lg s n in
  if negb (l_enabled l) then
    if l_warned l then Ok s
    else let s := set_lg s n {| l_enabled := l_enabled l; l_conf := l_conf l; l_warned := true; l_file := l_file l; l_stream := l_stream l; l_handlers := l_handlers l |} in
         Ok {| s_fs := s_fs s; s_loggers := s_loggers s; s_next := s_next s; s_console := s_console s; s_warnings := s_warnings s ++ [disabled_msg l] |}
  else
    let '(fs, i) := match l_file l with Some i => (s_fs s, i) | None => f_open (s_fs s) (c_file cfg) end in
    let hs := remove_handler (l_stream l) (l_handlers l) in
    if mem None hs then Err AttributeError else
    let printed := flat_map (fun h => match h with Some h => [(h, message kvs)] | None => [] end) hs in
    let '(fs, i) := emit cfg fs i (log_row t kvs) in
    let s := set_lg s n {| l_enabled := l_enabled l; l_conf := l_conf l; l_warned := l_warned l; l_file := Some i; l_stream := l_stream l;
                           l_handlers := add_handler (l_stream l) hs |} in
    Ok {| s_fs := fs; s_loggers := s_loggers s; s_next := s_next s; s_console := s_console s ++ printed; s_warnings := s_warnings s |}.
Definition step (cfg : config) (s : system) (o : op) : result system :=
  match o with
  | OGet n => Ok (do_get cfg s n)
  | OEnable n => Ok (do_enable s n true)
  | ODisable n => Ok (do_enable s n false)
  | OLog n t kvs => do_log cfg s n t kvs
  end.
Definition run (cfg : config) (s : system) (ops : list op) : result system := foldM (step cfg) ops s.

(** [IgnisLogReader().read_values] without a list of files. *)
Definition read_log strptime_other (cfg : config) (s : system) (keys : option (list pystr)) (from to : date_arg) : result (list (list pystr)) :=
  read_values strptime_other (map (fun e => f_content (s_fs s) (snd e)) (get_log_files (c_file cfg) (s_fs s))) keys from to.
