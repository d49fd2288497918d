(** Names of tomography circuits: what literal_eval reads back. *)
From Coq Require Import QArith Reals.
From Verif Require Import Base LinAlg PyStr DihedralModel RBSeqModel ResultFacts TomoModel TomoSpec.
Local Open Scope list_scope.
Local Open Scope nat_scope.

Section PyvalInd.
  Variable P : pyval -> Prop.
  Hypothesis HN : P VNone.
  Hypothesis HS : forall s, P (VStr s).
  Hypothesis HT : forall l, Forall P l -> P (VTup l).
  Fixpoint pyval_ind' (v : pyval) : P v :=
    match v with
    | VNone => HN
    | VStr s => HS s
    | VTup l => HT l ((fix go (l : list pyval) : Forall P l :=
                        match l with [] => Forall_nil P | a :: l' => Forall_cons a (pyval_ind' a) (go l') end) l)
    end.
End PyvalInd.

Lemma upto_quote s rest : plain s -> upto quote (s ++ quote :: rest) = Ok (s, rest).
Proof.
  induction s as [|a s IH]; intros Hp; cbn.
  - reflexivity.
  - inversion Hp as [|? ? Ha Hs]; subst. destruct (Ascii.eqb_spec a quote) as [E|]; [now destruct Ha|].
    rewrite (IH Hs). reflexivity.
Qed.

Definition items_text (l : list pyval) : pystr :=
  match l with [a] => repr a ++ str ",)" | _ => join (str ", ") (map repr l) ++ str ")" end.
Lemma repr_tup l : repr (VTup l) = str "(" ++ items_text l.
Proof. destruct l as [|a [|b l]]; cbn [repr items_text map join]; rewrite ?app_assoc; reflexivity. Qed.

(** The first character of a written value. *)
Lemma repr_head v : exists a t, repr v = a :: t /\ a <> ")"%char /\ a <> " "%char.
Proof.
  destruct v as [|s|l].
  - exists "N"%char, (list_ascii_of_string "one"). repeat split; discriminate.
  - exists quote, (s ++ [quote]). repeat split; discriminate.
  - rewrite repr_tup. exists "("%char, (items_text l). repeat split; discriminate.
Qed.

Lemma starts_none_quote s : starts (str "None") (quote :: s) = false.
Proof. reflexivity. Qed.
Lemma starts_none_paren s : starts (str "None") ("("%char :: s) = false.
Proof. reflexivity. Qed.

Lemma skip_spaces_none a t : a <> " "%char -> skip_spaces (a :: t) = a :: t.
Proof. intros H. cbn. destruct (Ascii.eqb_spec a " "); congruence. Qed.

Definition reads_back (v : pyval) : Prop :=
  plain_val v -> forall fuel rest, 2 * length (repr v) <= fuel -> parse fuel (repr v ++ rest) = Ok (v, rest).

Lemma plain_tup l : plain_val (VTup l) <-> Forall plain_val l.
Proof.
  induction l as [|a l IH]; cbn.
  - split; auto.
  - split.
    + intros [H1 H2]. constructor; [exact H1|]. apply IH. exact H2.
    + intros H. inversion H; subst. split; [assumption|]. apply IH. assumption.
Qed.

(** A list of at least one value and a closing parenthesis. *)
Lemma parse_items_join l rest fuel :
  l <> [] -> Forall reads_back l -> Forall plain_val l ->
  2 * length (join (str ", ") (map repr l) ++ str ")") + 1 <= fuel ->
  parse_items fuel (join (str ", ") (map repr l) ++ str ")" ++ rest) = Ok (l, (1 <? length l), rest).
Proof.
  revert fuel. induction l as [|a l IH]; intros fuel Hn Hr Hp Hf; [now destruct Hn|].
  inversion Hr as [|? ? Ha Hl]; subst. inversion Hp as [|? ? Pa Pl]; subst.
  destruct fuel as [|fuel]; [lia|].
  destruct (repr_head a) as (c & t & E & Hc1 & Hc2).
  destruct l as [|b l].
  - cbn [map join] in *. cbn [parse_items]. rewrite E at 1. cbn [app].
    destruct (Ascii.eqb_spec c ")"); [congruence|].
    rewrite Ha; [|assumption|rewrite app_length in Hf; cbn in Hf; lia]. cbn. reflexivity.
  - cbn [map] in *. change (join (str ", ") (repr a :: repr b :: map repr l)) with (repr a ++ str ", " ++ join (str ", ") (repr b :: map repr l)) in *.
    rewrite !app_length in Hf. cbn [length] in Hf.
    cbn [parse_items]. rewrite E at 1. cbn [app].
    destruct (Ascii.eqb_spec c ")"); [congruence|].
    replace (parse fuel _) with (parse fuel (repr a ++ (str ", " ++ join (str ", ") (repr b :: map repr l)) ++ str ")" ++ rest)).
    2:{ rewrite <- !app_assoc. reflexivity. }
    rewrite Ha; [|assumption|lia]. cbn [bind snd fst].
    change ((str ", " ++ join (str ", ") (repr b :: map repr l)) ++ str ")" ++ rest) with (","%char :: " "%char :: join (str ", ") (repr b :: map repr l) ++ str ")" ++ rest).
    cbn [Ascii.eqb]. change (Ascii.eqb "," ")") with false. change (Ascii.eqb "," ",") with true. cbv iota.
    cbn [skip_spaces]. change (Ascii.eqb " " " ") with true. cbv iota.
    assert (Hsk : skip_spaces (join (str ", ") (repr b :: map repr l) ++ str ")" ++ rest) = join (str ", ") (repr b :: map repr l) ++ str ")" ++ rest).
    { destruct (repr_head b) as (c' & t' & E' & Hc1' & Hc2').
      assert (Hx : exists u, join (str ", ") (repr b :: map repr l) ++ str ")" ++ rest = c' :: u).
      { destruct l; cbn [map join]; rewrite E'; eexists; cbn [app]; reflexivity. }
      destruct Hx as [u Hu]. rewrite Hu. now apply skip_spaces_none. }
    rewrite Hsk. change (repr b :: map repr l) with (map repr (b :: l)) in *.
    rewrite IH; [reflexivity|discriminate|assumption|assumption|].
    rewrite !app_length. cbn in *. lia.
Qed.

Lemma parse_repr v : reads_back v.
Proof.
  induction v as [|s|l IH] using pyval_ind'; intros Hp fuel rest Hf.
  - destruct fuel; [cbn in Hf; lia|]. reflexivity.
  - destruct fuel; [cbn in Hf; rewrite app_length in Hf; cbn in Hf; lia|].
    cbn [repr app parse]. rewrite starts_none_quote. change (Ascii.eqb quote quote) with true. cbv iota.
    rewrite <- app_assoc. cbn [app]. rewrite upto_quote by exact Hp. reflexivity.
  - rewrite repr_tup in *. apply plain_tup in Hp. cbn [app] in *.
    change (str "(" ++ items_text l) with ("("%char :: items_text l) in *.
    destruct fuel as [|fuel]; [cbn in Hf; lia|]. cbn [app parse]. rewrite starts_none_paren.
    change (Ascii.eqb "(" quote) with false. change (Ascii.eqb "(" "(") with true. cbv iota.
    cbn [length] in Hf.
    destruct l as [|a [|b l]].
    + cbn in *. destruct fuel; [lia|]. reflexivity.
    + cbn [items_text] in *. inversion IH as [|? ? Ha _]; subst. inversion Hp as [|? ? Pa _]; subst.
      rewrite app_length in Hf. cbn [length str list_ascii_of_string] in Hf.
      destruct fuel as [|fuel]; [lia|]. cbn [parse_items].
      destruct (repr_head a) as (c & t & E & Hc1 & Hc2).
      rewrite E at 1. cbn [app]. destruct (Ascii.eqb_spec c ")"); [congruence|].
      replace (parse fuel _) with (parse fuel (repr a ++ str ",)" ++ rest)).
      2:{ rewrite <- app_assoc. reflexivity. }
      rewrite Ha; [|assumption|cbn in Hf; lia]. cbn [bind snd fst].
      change (str ",)" ++ rest) with (","%char :: ")"%char :: rest). cbv iota. cbn [skip_spaces].
      change (Ascii.eqb "," ")") with false. change (Ascii.eqb "," ",") with true. change (Ascii.eqb ")" " ") with false. cbv iota.
      destruct fuel as [|fuel]; [cbn in Hf; lia|]. cbn. reflexivity.
    + unfold items_text in *. rewrite <- app_assoc. rewrite parse_items_join; [reflexivity|discriminate|assumption|assumption|lia].
Qed.

Lemma literal_eval_repr v : plain_val v -> literal_eval (repr v) = Ok v.
Proof.
  intros H. unfold literal_eval. rewrite <- (app_nil_r (repr v)) at 2. rewrite parse_repr by (auto; lia). reflexivity.
Qed.
