(** Independent meaning of the versions of C82: those of PEP 440 without epochs,
    pre-releases and post-releases. *)
From Verif Require Import Base LogModel VersionModel.
Local Open Scope string_scope.
Local Open Scope list_scope.
Local Open Scope nat_scope.

Definition digit (c : ascii) : Prop := 48 <= nat_of_ascii c <= 57.
Definition lower_hex (c : ascii) : Prop := digit c \/ 97 <= nat_of_ascii c <= 102.
Definition letter (c : ascii) : Prop := 65 <= nat_of_ascii c <= 90 \/ 97 <= nat_of_ascii c <= 122.
(** Non-empty words of such characters, separated by dots. *)
Definition word (ok : ascii -> Prop) (s : pystr) : Prop := s <> [] /\ Forall ok s.
Inductive dotted (ok : ascii -> Prop) : pystr -> Prop :=
| dot_one s : word ok s -> dotted ok s
| dot_more s t : word ok s -> dotted ok t -> dotted ok (s ++ "."%char :: t).
Definition release : pystr -> Prop := dotted digit.
(** PEP 440: a release, perhaps ".dev" and a number, perhaps "+" and a local label. *)
Definition valid_version (v : pystr) : Prop :=
  exists r dev loc, v = r ++ dev ++ loc /\ release r /\ (dev = [] \/ exists d, word digit d /\ dev = str ".dev" ++ d) /\
    (loc = [] \/ exists l, dotted (fun c => digit c \/ letter c) l /\ loc = "+"%char :: l).

(** The file holds a release, with blanks around it. *)
Definition file_holds (r pre post : pystr) (w : world) : Prop :=
  w_file w = pre ++ r ++ post /\ release r /\ forallb is_space pre = true /\ forallb is_space post = true.
(** The commands as they are run. *)
Definition runs (w : world) (cmd : list pystr) : proc := w_run w cmd (minimal_env (w_environ w)) (removelast (w_root w)).
(** There is no repository, git fails, or a tag points at the commit. *)
Definition released (w : world) : Prop :=
  w_exists w (removelast (removelast (w_root w)) ++ [str ".git"]) = false \/ runs w tags = NotStarted \/
  exists rc out, runs w tags = Finished rc out /\ ((0 < rc)%Z \/ out <> []).
(** git fails, or writes the forty digits of the commit. *)
Definition failed (p : proc) : Prop := p = NotStarted \/ exists rc out, p = Finished rc out /\ (0 < rc)%Z.
Definition commit_is (sha : pystr) (p : proc) : Prop := length sha = 40 /\ Forall lower_hex sha /\ p = Finished 0 (sha ++ [lf]).
