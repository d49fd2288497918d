(** Python string operations used to build and to read circuit names:
    [%d], [int], [split].  Shared by several areas. *)
From Coq Require Import Decimal DecimalFacts DecimalString DecimalNat.
From Verif Require Import Base.
Open Scope nat_scope.

(** ['%d' % n] for a natural number and for an integer. *)
Definition dec (n : nat) : pystr := list_ascii_of_string (NilZero.string_of_uint (Nat.to_uint n)).
Definition zdec (z : Z) : pystr :=
  match z with
  | Zneg p => "-"%char :: dec (Pos.to_nat p)
  | _ => dec (Z.to_nat z)
  end.

(** [int(s)] for a decimal literal; other strings that Python also accepts
    (blanks, underscores, leading '+') are not covered and raise here. *)
Definition undec (s : pystr) : result Z :=
  let nat_of t := match NilZero.uint_of_string (string_of_list_ascii t) with
                  | Some u => Ok (Z.of_nat (Nat.of_uint u))
                  | None => Err ValueError
                  end in
  match s with
  | c :: t => if eqb c "-"%char then do z <- nat_of t; Ok (- z)%Z else nat_of s
  | [] => Err ValueError
  end.

(** [s.split(c)] for a single character. *)
Fixpoint split_go (c : ascii) (cur s : pystr) : list pystr :=
  match s with
  | [] => [rev cur]
  | a :: s' => if eqb a c then rev cur :: split_go c [] s' else split_go c (a :: cur) s'
  end.
Definition split (c : ascii) (s : pystr) : list pystr := split_go c [] s.

(** [s.startswith(p)], and [s.split(sep)[0]]. *)
Fixpoint starts (p s : pystr) : bool :=
  match p, s with
  | [], _ => true
  | a :: p', b :: s' => eqb a b && starts p' s'
  | _ :: _, [] => false
  end.
Fixpoint before (sep s : pystr) : pystr :=
  if starts sep s then [] else match s with [] => [] | a :: s' => a :: before sep s' end.

Definition is_dec_digit (c : ascii) : bool :=
  existsb (eqb c) (str "0123456789").

Lemma digits_of_uint u : Forall (fun c => is_dec_digit c = true) (list_ascii_of_string (NilZero.string_of_uint u)).
Proof.
  assert (H : forall v, Forall (fun c => is_dec_digit c = true) (list_ascii_of_string (NilEmpty.string_of_uint v))).
  { induction v; cbn; constructor; auto. }
  destruct u; try apply H. cbn. repeat constructor.
Qed.

Lemma dec_digits n : Forall (fun c => is_dec_digit c = true) (dec n).
Proof. apply digits_of_uint. Qed.

Lemma dec_not_digit n c : is_dec_digit c = false -> ~ In c (dec n).
Proof. intros H Hi. pose proof (dec_digits n) as Hd. rewrite Forall_forall in Hd. rewrite (Hd c Hi) in H. discriminate. Qed.

Lemma string_of_uint_nonempty u : NilZero.string_of_uint u <> EmptyString.
Proof. destruct u; discriminate. Qed.

Lemma dec_nonempty n : dec n <> [].
Proof.
  unfold dec. pose proof (string_of_uint_nonempty (Nat.to_uint n)) as H.
  destruct (NilZero.string_of_uint (Nat.to_uint n)); [congruence | discriminate].
Qed.

Lemma to_uint_nz n : Nat.to_uint n <> Nil.
Proof.
  destruct n as [|n]; [discriminate|]. intros E. pose proof (DecimalNat.Unsigned.of_to (S n)) as H. rewrite E in H. discriminate.
Qed.

Lemma undec_nat n : NilZero.uint_of_string (string_of_list_ascii (dec n)) = Some (Nat.to_uint n).
Proof.
  unfold dec. rewrite string_of_list_ascii_of_string. apply NilZero.usu. apply to_uint_nz.
Qed.

Lemma undec_dec n : undec (dec n) = Ok (Z.of_nat n).
Proof.
  unfold undec. pose proof (dec_nonempty n) as He. pose proof (undec_nat n) as Hu.
  pose proof (dec_not_digit n "-"%char eq_refl) as Hm.
  destruct (dec n) as [|c t]; [congruence|].
  destruct (eqb_spec c "-"%char) as [->|_]; [exfalso; apply Hm; left; reflexivity|].
  rewrite Hu, DecimalNat.Unsigned.of_to. reflexivity.
Qed.

Lemma undec_zdec z : undec (zdec z) = Ok z.
Proof.
  destruct z as [|p|p]; unfold zdec.
  - reflexivity.
  - rewrite undec_dec. f_equal. lia.
  - unfold undec. destruct (eqb_spec "-"%char "-"%char) as [_|]; [|congruence].
    rewrite undec_nat, DecimalNat.Unsigned.of_to. cbn [bind]. f_equal. lia.
Qed.

Lemma zdec_inj a b : zdec a = zdec b -> a = b.
Proof. intros H. assert (E : undec (zdec a) = undec (zdec b)) by (rewrite H; reflexivity). rewrite !undec_zdec in E. congruence. Qed.
Lemma dec_inj a b : dec a = dec b -> a = b.
Proof. intros H. assert (E : undec (dec a) = undec (dec b)) by (rewrite H; reflexivity). rewrite !undec_dec in E. injection E. lia. Qed.

Lemma zdec_no c z : is_dec_digit c = false -> c <> "-"%char -> ~ In c (zdec z).
Proof.
  intros H Hm. destruct z; unfold zdec; try (apply dec_not_digit; exact H).
  intros [E|E]; [congruence | apply (dec_not_digit _ _ H E)].
Qed.

(** ** Reading names back *)
Lemma split_go_plain c t cur : ~ In c t -> split_go c cur t = [rev cur ++ t].
Proof.
  revert cur; induction t as [|a t IH]; intros cur H; cbn [split_go]; [rewrite app_nil_r; reflexivity|].
  destruct (eqb_spec a c) as [->|_]; [exfalso; apply H; left; reflexivity|].
  rewrite IH by (intros Hi; apply H; right; exact Hi). cbn [rev]. rewrite <- app_assoc. reflexivity.
Qed.

Lemma split_go_cons c s cur : split_go c cur s <> [].
Proof. revert cur; induction s as [|a s IH]; intros cur; cbn [split_go]; [discriminate|]. destruct (eqb a c); [discriminate | apply IH]. Qed.

Lemma last_split_go c s t cur d : ~ In c t -> last (split_go c cur (s ++ c :: t)) d = t.
Proof.
  intros H. revert cur; induction s as [|a s IH]; intros cur; cbn [app split_go].
  - destruct (eqb_spec c c) as [_|]; [|congruence]. rewrite split_go_plain by exact H. reflexivity.
  - destruct (eqb_spec a c); [|apply IH].
    specialize (IH []). destruct (split_go c [] (s ++ c :: t)) eqn:E; [|exact IH].
    exfalso. apply (split_go_cons _ _ _ E).
Qed.

Lemma last_split c s t d : ~ In c t -> last (split c (s ++ c :: t)) d = t.
Proof. apply last_split_go. Qed.

(** No occurrence of the two characters [a b] in a row. *)
Fixpoint nopair (a b : ascii) (s : pystr) : bool :=
  match s with
  | [] => true
  | x :: s' => negb (eqb x a && match s' with y :: _ => eqb y b | [] => false end) && nopair a b s'
  end.

Lemma before_sep a b sep p r : a <> b -> nopair a b p = true ->
  before (a :: b :: sep) (p ++ (a :: b :: sep) ++ r) = p.
Proof.
  intros Hab. induction p as [|x p IH]; intros H.
  - cbn [app]. change (a :: b :: sep ++ r) with ((a :: b :: sep) ++ r).
    assert (E : forall q r', starts q (q ++ r') = true).
    { induction q as [|c q IHq]; intros r'; cbn; auto. destruct (eqb_spec c c); [apply IHq | congruence]. }
    destruct ((a :: b :: sep) ++ r) eqn:G; cbn [before]; rewrite <- G, E; reflexivity.
  - cbn [nopair] in H. apply andb_true_iff in H. destruct H as [H1 H2].
    cbn [app before starts].
    destruct (eqb_spec a x) as [<-|Hx]; cbn [andb]; [|f_equal; apply IH; exact H2].
    destruct (eqb_spec a a) as [_|]; [|congruence]. cbn [andb] in H1.
    destruct p as [|y p]; cbn [app] in *.
    + destruct (eqb_spec b a) as [E|_]; [congruence|]. cbn [andb]. f_equal. apply IH. exact H2.
    + destruct (eqb_spec b y) as [<-|_].
      * destruct (eqb_spec b b); [discriminate | congruence].
      * cbn [andb]. f_equal. apply IH. exact H2.
Qed.

Lemma nopair_app a b s t : nopair a b s = true -> nopair a b t = true -> (forall c, In c t -> c <> b) -> nopair a b (s ++ t) = true.
Proof.
  intros Hs Ht Hb. induction s as [|x s IH]; cbn [app]; auto. cbn [nopair] in *. apply andb_true_iff in Hs. destruct Hs as [H1 H2].
  rewrite (IH H2), andb_true_r. destruct s as [|y s]; cbn [app]; [|exact H1].
  destruct t as [|c t]; [rewrite andb_false_r; reflexivity|].
  destruct (eqb_spec c b) as [E|_]; [exfalso; apply (Hb c); [left; reflexivity | exact E]|]. rewrite andb_false_r. reflexivity.
Qed.

Lemma nopair_no a b s : ~ In b s -> nopair a b s = true.
Proof.
  induction s as [|x s IH]; intros H; cbn [nopair]; auto. rewrite IH by (intros Hi; apply H; right; exact Hi).
  destruct s as [|y s]; [rewrite andb_false_r; reflexivity|].
  destruct (eqb_spec y b) as [->|_]; [exfalso; apply H; right; left; reflexivity|]. rewrite andb_false_r. reflexivity.
Qed.

(** A separator that occurs in neither left part determines the split. *)
Lemma sep_inj (c : ascii) (a b x y : pystr) : ~ In c a -> ~ In c b -> a ++ c :: x = b ++ c :: y -> a = b /\ x = y.
Proof.
  revert b; induction a as [|h a IH]; intros [|k b] Ha Hb E; cbn [app] in E.
  - injection E as E. auto.
  - exfalso; apply Hb; left; congruence.
  - exfalso; apply Ha; left; congruence.
  - injection E as E1 E2. subst k. destruct (IH b) as [-> ->]; auto; intros Hi; [apply Ha | apply Hb]; right; exact Hi.
Qed.
