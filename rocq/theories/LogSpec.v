(** Specification for logging: what is written and read back, stated on entries
    (a date and key/value pairs) and on time as a number of seconds. *)
From Verif Require Import Base.
From Verif Require Import LogModel.
Local Open Scope string_scope.
Local Open Scope list_scope.
Local Open Scope nat_scope.

Definition entry : Type := dt * list (pystr * pystr).

(** ** Time *)
(** Years count from 1; the days of the months of a year. *)
Definition month_days (l : bool) : list nat := [31; if l then 29 else 28; 31; 30; 31; 30; 31; 31; 30; 31; 30; 31].
Definition is_leap (y : nat) : bool := if y mod 400 =? 0 then true else if y mod 100 =? 0 then false else y mod 4 =? 0.
Definition days_of_year (y : nat) : nat := list_sum (month_days (is_leap y)).
Definition valid (t : dt) : Prop :=
  1 <= d_year t /\ (N.of_nat (d_year t) < 10000)%N /\ 1 <= d_month t <= 12 /\ 1 <= d_day t <= nth (d_month t - 1) (month_days (is_leap (d_year t))) 0 /\
  d_hour t < 24 /\ d_min t < 60 /\ d_sec t < 60 /\ (N.of_nat (d_micro t) < 1000000)%N.
(** Days before a year, by adding up the years; microseconds since the beginning. *)
Definition days_before (y : nat) : nat := list_sum (map days_of_year (seq 1 (y - 1))).
Definition day_number (t : dt) : nat :=
  days_before (d_year t) + list_sum (firstn (d_month t - 1) (month_days (is_leap (d_year t)))) + (d_day t - 1).
Definition micros (t : dt) : N :=
  (((N.of_nat (day_number t) * 24 + N.of_nat (d_hour t)) * 60 + N.of_nat (d_min t)) * 60 + N.of_nat (d_sec t)) * 1000000 + N.of_nat (d_micro t).
(** In the closed interval. *)
Definition within (from to : option dt) (t : dt) : bool :=
  match from with Some f => N.leb (micros f) (micros t) | None => true end &&
  match to with Some u => N.leb (micros t) (micros u) | None => true end.

(** ** Entries *)
(** The date and the time, with leading zeros. *)
Definition numeral (n : nat) : ascii := ascii_of_nat (48 + n mod 10).
Definition two (n : nat) : pystr := [numeral (n / 10); numeral n].
Definition four (n : nat) : pystr := [numeral (n / 1000); numeral (n / 100); numeral (n / 10); numeral n].
Definition date_text (t : dt) : pystr := (four (d_year t) ++ str "/" ++ two (d_month t) ++ str "/" ++ two (d_day t))%list.
Definition time_text (t : dt) : pystr := (two (d_hour t) ++ str ":" ++ two (d_min t) ++ str ":" ++ two (d_sec t))%list.
Definition blank (c : ascii) : Prop := In (nat_of_ascii c) [9; 10; 11; 12; 13; 28; 29; 30; 31; 32; 133; 160].
Definition no_blank (s : pystr) : Prop := Forall (fun c => ~ blank c) s.
(** Keys that can be asked for. *)
Definition plain_key (k : pystr) : Prop := ~ In ":"%char k /\ (forall s, k <> "'"%char :: s) /\ (forall s, k <> s ++ ["'"%char]).
Definition good_entry (e : entry) : Prop :=
  valid (fst e) /\ d_micro (fst e) = 0 /\ 1000 <= d_year (fst e) /\ Forall (fun kv => no_blank (fst kv) /\ no_blank (snd kv) /\ plain_key (fst kv)) (snd e).
(** What the reader is to return: the date, the time and the pairs asked for of
    the entries in the interval. *)
Definition shown (kv : pystr * pystr) : pystr := (str "'" ++ fst kv ++ str "':'" ++ snd kv ++ str "'")%list.
Definition asked (keys : option (list pystr)) (kv : pystr * pystr) : bool := match keys with Some ks => mem (fst kv) ks | None => true end.
Definition row_of (keys : option (list pystr)) (e : entry) : list pystr :=
  date_text (fst e) :: time_text (fst e) :: map shown (filter (asked keys) (snd e)).
Definition rows_of (keys : option (list pystr)) (from to : option dt) (es : list entry) : list (list pystr) :=
  map (row_of keys) (filter (fun e => within from to (fst e) && existsb (asked keys) (snd e)) es).
(** One line of the file. *)
Definition line_of (e : entry) : pystr :=
  (date_text (fst e) ++ str " " ++ time_text (fst e) ++ str " ignis_logging " ++ concat (map (fun kv => shown kv ++ str " ") (snd e)) ++ [ascii_of_nat 10])%list.
Definition file_of (es : list entry) : pystr := concat (map line_of es).

(** ** Histories *)
(** The entries logged by a history: those of loggers that are enabled at the time. *)
Fixpoint logged (all : bool) (on : list pystr) (ops : list op) : list entry :=
  match ops with
  | [] => []
  | OGet n :: ops' => logged all (if all then n :: on else on) ops'
  | OEnable n :: ops' => logged all (n :: on) ops'
  | ODisable n :: ops' => logged all (filter (fun m => negb (eqb m n)) on) ops'
  | OLog n t kvs :: ops' => (if mem n on then [(t, kvs)] else []) ++ logged all on ops'
  end.
(** Loggers are used after they have been obtained by [get_logger]. *)
Fixpoint obtained (got : list pystr) (ops : list op) : Prop :=
  match ops with
  | [] => True
  | OGet n :: ops' => obtained (n :: got) ops'
  | (OEnable n | ODisable n | OLog n _ _) :: ops' => In n got /\ obtained got ops'
  end.
Definition gets (ops : list op) : list pystr := flat_map (fun o => match o with OGet n => [n] | _ => [] end) ops.
(** At most one logger writes. *)
Definition one_writer (ops : list op) : Prop := exists n0, forall n t kvs, In (OLog n t kvs) ops -> n = n0.
(** The entries of the log files from the oldest to the newest: the path with the
    largest number, ..., with '.1', the path itself. *)
Definition generation (base : pystr) (j : nat) : pystr := match j with 0 => base | S _ => (base ++ str "." ++ PyStr.dec j)%list end.
(** A fresh process on a file system without log files. *)
Definition fresh (fs : fsys) : system := {| s_fs := fs; s_loggers := []; s_next := 0; s_console := []; s_warnings := [] |}.

(** ** Configuration *)
(** Upper-case letters; texts without them, without ':' and '#', on one line, that
    do not begin or end with a blank. *)
Definition upper (c : ascii) : Prop := let n := nat_of_ascii c in 65 <= n <= 90 \/ 192 <= n <= 214 \/ 216 <= n <= 222.
Definition plain_text (s : pystr) : Prop :=
  s <> [] /\ ~ In ":"%char s /\ ~ In "#"%char s /\ ~ In (ascii_of_nat 10) s /\ ~ In (ascii_of_nat 13) s /\
  (forall a r, s = a :: r -> ~ blank a) /\ (forall a r, s = r ++ [a] -> ~ blank a) /\ Forall (fun c => ~ upper c) s.
Definition setting (k v : pystr) : pystr := (k ++ str ": " ++ v ++ [ascii_of_nat 10])%list.
Definition config_text (on : bool) (file : pystr) (size rotations : nat) : pystr :=
  (setting (str "file_logging") (if on then str "true" else str "false") ++ setting (str "log_file") file ++
   setting (str "max_size") (PyStr.dec size) ++ setting (str "max_rotations") (PyStr.dec rotations))%list.

(** ** Dates given as text *)
(** Digits that stand for the number. *)
Definition number (s : pystr) (n : nat) : Prop :=
  Forall (fun c => 48 <= nat_of_ascii c <= 57) s /\ fold_left (fun a c => 10 * a + (nat_of_ascii c - 48)) s 0 = n.
Definition short (s : pystr) : Prop := 1 <= length s <= 2.
(** Year, month and day with slashes, blanks, and hours, minutes and seconds with
    colons; all but the year of one or two digits; the day can also be a blank and
    one digit. *)
Definition written (s : pystr) (t : dt) : Prop :=
  exists y m d b h mi se, s = (y ++ str "/" ++ m ++ str "/" ++ d ++ b ++ h ++ str ":" ++ mi ++ str ":" ++ se)%list /\
    length y = 4 /\ number y (d_year t) /\ short m /\ number m (d_month t) /\
    (short d /\ number d (d_day t) \/ exists d', d = " "%char :: d' /\ length d' = 1 /\ number d' (d_day t)) /\
    b <> [] /\ Forall blank b /\
    short h /\ number h (d_hour t) /\ short mi /\ number mi (d_min t) /\ short se /\ number se (d_sec t).

(** ** Settings in any order *)
(** The last value given for a key. *)
Definition last_of (kvs : list (pystr * pystr)) (k : pystr) : option pystr :=
  fold_left (fun acc kv => if eqb (fst kv) k then Some (snd kv) else acc) kvs None.
(** Digits are read as a number, anything else as 0. *)
Definition reads (o : option pystr) (n : nat) : Prop :=
  match o with
  | None => n = 0
  | Some v => v = PyStr.dec n \/ n = 0 /\ exists c, In c v /\ ~ 48 <= nat_of_ascii c <= 57 /\ ~ In (nat_of_ascii c) [178; 179; 185]
  end.
