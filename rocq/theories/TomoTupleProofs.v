(** [tomography_circuit_tuples] (C44). *)
From Coq Require Import QArith.
From Verif Require Import LinAlg Base ResultFacts PyStr TomoModel TomoSpec TomoCircProofs.
Local Open Scope list_scope.
Local Open Scope nat_scope.

Lemma NoDup_app_disjoint {A} (l l' : list A) : NoDup l -> NoDup l' -> (forall x, In x l -> ~ In x l') -> NoDup (l ++ l').
Proof.
  induction 1 as [|a l Ha Hl IH]; intros H' D; [exact H'|]. cbn. constructor.
  - rewrite in_app_iff. intros [H|H]; [contradiction|]. apply (D a); [now left|assumption].
  - apply IH; auto. intros x Hx. apply D. now right.
Qed.
Lemma tuples_lemma n ls ps : NoDup ls -> NoDup ps ->
  exists l, tomography_circuit_tuples n (LTuple ls) (LTuple ps) = Ok l /\ NoDup l /\ length l = length ls ^ n * length ps ^ n /\
  forall x, In x l <-> exists p m, x = (Some p, Some m) /\ choice n ps p /\ choice n ls m.
Proof.
  intros Hl Hp. eexists. split; [reflexivity|]. cbn [generate_labels].
  rewrite <- (length_operator_tuples ls n), <- (length_operator_tuples ps n).
  assert (Hm : forall x, In x (map Some (operator_tuples ls n)) <-> exists m, x = Some m /\ choice n ls m).
  { intros x. rewrite in_map_iff. split; intros (m & A & B); exists m; [|]; (split; [congruence|now apply In_operator_tuples]). }
  assert (Hq : forall x, In x (map Some (operator_tuples ps n)) <-> exists m, x = Some m /\ choice n ps m).
  { intros x. rewrite in_map_iff. split; intros (m & A & B); exists m; [|]; (split; [congruence|now apply In_operator_tuples]). }
  assert (Dl : NoDup (map Some (operator_tuples ls n))) by (apply FinFun.Injective_map_NoDup; [intros a b E; congruence|now apply NoDup_operator_tuples]).
  assert (Dp : NoDup (map Some (operator_tuples ps n))) by (apply FinFun.Injective_map_NoDup; [intros a b E; congruence|now apply NoDup_operator_tuples]).
  rewrite <- (map_length Some (operator_tuples ls n)), <- (map_length Some (operator_tuples ps n)).
  set (L := map Some (operator_tuples ls n)) in *. set (P := map Some (operator_tuples ps n)) in *. clearbody L P.
  split; [|split].
  - clear Hm. induction Dl as [|a L Ha _ IH]; [constructor|]. cbn [flat_map]. apply NoDup_app_disjoint; [|assumption|].
    + apply FinFun.Injective_map_NoDup; [intros x y E; congruence|assumption].
    + intros x Hx Hx'. apply in_map_iff in Hx. destruct Hx as (y & <- & _). apply in_flat_map in Hx'. destruct Hx' as (b & Hb & Hx'). apply in_map_iff in Hx'. destruct Hx' as (z & E & _). congruence.
  - clear. induction L as [|a L IH]; [reflexivity|]. cbn [flat_map]. rewrite app_length, map_length, IH. cbn. lia.
  - intros x. rewrite in_flat_map. split.
    + intros (a & Ha & Hx). apply in_map_iff in Hx. destruct Hx as (b & <- & Hb). apply Hm in Ha. apply Hq in Hb. destruct Ha as (m & -> & ?). destruct Hb as (p & -> & ?). now exists p, m.
    + intros (p & m & -> & Cp & Cm). exists (Some m). split; [apply Hm; eauto|]. apply in_map_iff. exists (Some p). split; [reflexivity|]. apply Hq; eauto.
Qed.
