(** The strings produced by [process_results] and the nodes read off them. *)
From Verif Require Import Base BasisSem RepCodeModel RepCodeSpec RepCodeCircProofs RepCodeFaultProofs.

(** Bits of a run of a code of distance [d] with [T] rounds. *)
Definition codebit (d T : nat) (bits : nat -> bool) (j : nat) : bool := bits (T * (d - 1) + j).
Definition srd (d T : nat) (bits : nat -> bool) (r j : nat) : bool :=
  if r <? T then bits (r * (d - 1) + j) else syn (codebit d T bits) j.

Definition L0 : node := [0; 0; 0].
Definition L1 : node := [0; 1; 0].

Definition lit (d T : nat) (bits : nat -> bool) (n : node) : bool :=
  match n with
  | [0; 0; 0] => codebit d T bits (d - 1)
  | [0; 1; 0] => codebit d T bits 0
  | [1; t; e] => xorb (srd d T bits t (d - 2 - e)) (if t =? 0 then false else srd d T bits (t - 1) (d - 2 - e))
  | _ => false
  end.

Definition row (d : nat) (f : node -> bool) (t : nat) : pystr := map (fun e => bit_char (f [1; t; e])) (seq 0 (d - 1)).
Definition dec_string (d T : nat) (f : node -> bool) : pystr :=
  [bit_char (f L0); sp; bit_char (f L1); sp; sp] ++ join [sp] (map (row d f) (seq 0 (T + 1))).
Definition allnodes (d T : nat) : list node :=
  L0 :: L1 :: flat_map (fun t => map (fun e => [1; t; e]) (seq 0 (d - 1))) (seq 0 (T + 1)).

Definition out_string (d T : nat) (bits : nat -> bool) : pystr :=
  join [sp] (rev (reg_strings 0 (repeat (d - 1) T ++ [d]) bits)).

(** * Generic string lemmas *)
Definition nospace (s : pystr) : Prop := ~ In sp s.

Lemma split1_nospace cur s rest : nospace s -> split1 cur (s ++ sp :: rest) = (rev cur ++ s) :: split1 [] rest.
Proof.
  revert cur; induction s as [|c s IH]; intros cur Hn; cbn [app split1].
  - rewrite eqb_refl, app_nil_r. reflexivity.
  - destruct (eqb_spec c sp) as [->|Hc]; [exfalso; apply Hn; left; reflexivity|].
    rewrite IH; [|intros Hi; apply Hn; right; exact Hi]. cbn [rev]. rewrite <- app_assoc. reflexivity.
Qed.
Lemma split1_end cur s : nospace s -> split1 cur s = [rev cur ++ s].
Proof.
  revert cur; induction s as [|c s IH]; intros cur Hn; cbn [split1]; [rewrite app_nil_r; reflexivity|].
  destruct (eqb_spec c sp) as [->|Hc]; [exfalso; apply Hn; left; reflexivity|].
  rewrite IH; [|intros Hi; apply Hn; right; exact Hi]. cbn [rev]. rewrite <- app_assoc. reflexivity.
Qed.

Lemma split_join l : l <> [] -> Forall nospace l -> split_sp (join [sp] l) = l.
Proof.
  intros Hne Hl. unfold split_sp. induction Hl as [|s l Hs Hl IH]; [congruence|].
  destruct l as [|s' l].
  - cbn [join]. rewrite split1_end by exact Hs. reflexivity.
  - change (join [sp] (s :: s' :: l)) with (s ++ sp :: join [sp] (s' :: l)).
    rewrite split1_nospace by exact Hs. cbn [rev app]. f_equal. apply IH. discriminate.
Qed.

Fixpoint nodsp (s : pystr) : Prop :=
  match s with
  | a :: s' => match s' with b :: _ => ~ (a = sp /\ b = sp) | [] => True end /\ nodsp s'
  | [] => True
  end.

Lemma split2_nodsp s : forall cur, nodsp s -> split2 cur s = [rev cur ++ s].
Proof.
  induction s as [|a s IH]; intros cur Hn; cbn [split2]; [rewrite app_nil_r; reflexivity|].
  destruct s as [|b s].
  - cbn [rev]. reflexivity.
  - cbn [nodsp] in Hn. destruct Hn as [Hab Hn].
    destruct (eqb_spec a sp) as [->|Ha]; cbn [andb].
    + destruct (eqb_spec b sp) as [->|Hb]; [exfalso; apply Hab; auto|].
      rewrite IH by exact Hn. cbn [rev]. rewrite <- app_assoc. reflexivity.
    + rewrite IH by exact Hn. cbn [rev]. rewrite <- app_assoc. reflexivity.
Qed.

Lemma nospace_nodsp s : nospace s -> nodsp s.
Proof.
  induction s as [|a s IH]; intros Hn; cbn; [exact I|]. split.
  - destruct s; [exact I|]. intros [-> _]. apply Hn; left; reflexivity.
  - apply IH. intros Hi; apply Hn; right; exact Hi.
Qed.

Lemma nodsp_app s s' : nospace s -> s <> [] -> nodsp s' -> nodsp (s ++ s').
Proof.
  induction s as [|a s IH]; intros Hn Hne Hs'; [congruence|]. cbn [app nodsp].
  assert (Ha : a <> sp) by (intros ->; apply Hn; left; reflexivity).
  destruct s as [|b s].
  - cbn [app]. split; [destruct s'; [exact I|tauto] | exact Hs'].
  - split; [cbn [app]; tauto|]. apply IH; [intros Hi; apply Hn; right; exact Hi | discriminate | exact Hs'].
Qed.

Lemma join_nodsp l : Forall nospace l -> Forall (fun s => s <> []) l -> nodsp (join [sp] l).
Proof.
  intros Hl. induction Hl as [|s l Hs Hl IH]; intros Hne; [exact I|].
  inversion Hne as [|? ? Hs1 Hne']; subst. destruct l as [|s' l].
  - cbn [join]. apply nospace_nodsp, Hs.
  - change (join [sp] (s :: s' :: l)) with (s ++ sp :: join [sp] (s' :: l)).
    apply nodsp_app; [exact Hs | exact Hs1|]. specialize (IH Hne').
    inversion Hl as [|? ? Hs' Hl']; inversion Hne' as [|? ? Hs1' Hne'']; subst.
    cbn [nodsp]. split; [|exact IH].
    destruct s' as [|c s']; [congruence|].
    assert (exists r, join [sp] ((c :: s') :: l) = c :: r) as (r & ->) by (destruct l; cbn; eexists; reflexivity).
    intros [_ ->]. apply Hs'. left; reflexivity.
Qed.

Lemma removelast_join l : l <> [] -> removelast (flat_map (fun s => s ++ [sp]) l) = join [sp] l.
Proof.
  induction l as [|s l IH]; [congruence|]. intros _. destruct l as [|s' l].
  - cbn [flat_map join]. rewrite app_nil_r. apply removelast_last.
  - change (join [sp] (s :: s' :: l)) with (s ++ [sp] ++ join [sp] (s' :: l)).
    rewrite <- IH by discriminate. set (r := flat_map (fun s => s ++ [sp]) (s' :: l)).
    change (flat_map (fun s => s ++ [sp]) (s :: s' :: l)) with ((s ++ [sp]) ++ r).
    rewrite removelast_app; [rewrite app_assoc; reflexivity|]. unfold r. destruct s'; discriminate.
Qed.

Lemma bit_char_nosp b : bit_char b <> sp.
Proof. destruct b; discriminate. Qed.
Lemma bit_map_nosp {A} (f : A -> bool) l : nospace (map (fun a => bit_char (f a)) l).
Proof. intros H. apply in_map_iff in H as (a & E & _). exact (bit_char_nosp _ E). Qed.

Lemma eqb_bit_char a b : (if eqb (bit_char a) (bit_char b) then "0"%char else "1"%char) = bit_char (xorb a b).
Proof. destruct a, b; reflexivity. Qed.
Lemma eqb_bit_char0 a : (if eqb (bit_char a) "0"%char then "0"%char else "1"%char) = bit_char a.
Proof. destruct a; reflexivity. Qed.
Lemma eqb_bit_char1 a : eqb (bit_char a) "1"%char = a.
Proof. destruct a; reflexivity. Qed.

Lemma rev_map_seq {A} (f : nat -> A) n : rev (map f (seq 0 n)) = map (fun i => f (n - 1 - i)) (seq 0 n).
Proof.
  induction n as [|n IH]; [reflexivity|]. rewrite seq_S at 1. rewrite map_app, rev_app_distr, IH. cbn [map rev app seq plus].
  rewrite <- seq_shift, map_map. f_equal; [f_equal; lia|]. apply map_ext_in. intros i Hi. apply in_seq in Hi. f_equal. lia.
Qed.

Lemma reg_strings_repeat n k m bits : forall o,
  reg_strings o (repeat n k ++ [m]) bits =
  map (fun t => rev (map (fun i => bit_char (bits (o + t * n + i))) (seq 0 n))) (seq 0 k)
  ++ [rev (map (fun i => bit_char (bits (o + k * n + i))) (seq 0 m))].
Proof.
  induction k as [|k IH]; intros o; cbn [repeat app reg_strings].
  - cbn [seq map app]. f_equal. f_equal. apply map_ext. intros i. f_equal. f_equal. lia.
  - rewrite IH. cbn [seq map app]. f_equal.
    + f_equal. apply map_ext. intros i. f_equal. f_equal. lia.
    + f_equal.
      * rewrite <- seq_shift, map_map. apply map_ext. intros t. f_equal. apply map_ext. intros i. f_equal. f_equal. lia.
      * f_equal. f_equal. apply map_ext. intros i. f_equal. f_equal. lia.
Qed.

Lemma index_back_rev {A} (l : list A) k : 1 <= k -> index_back l k = index_e (rev l) (k - 1).
Proof.
  intros Hk. unfold index_back, index_e.
  destruct (Nat.leb_spec 1 k); [|lia]. destruct (Nat.leb_spec k (length l)); cbn [andb].
  - replace (nth_error (rev l) (k - 1)) with (nth_error l (length l - k)); [reflexivity|].
    destruct (nth_error l (length l - k)) as [a|] eqn:E.
    + symmetry. rewrite (nth_error_nth' (rev l) a) by (rewrite rev_length; lia). f_equal.
      rewrite rev_nth by lia. replace (length l - S (k - 1)) with (length l - k) by lia. apply nth_error_nth, E.
    + apply nth_error_None in E. lia.
  - replace (nth_error (rev l) (k - 1)) with (@None A); [reflexivity|]. symmetry. apply nth_error_None. rewrite rev_length. lia.
Qed.

Lemma mapM_Ok {A B} (f : A -> result B) (g : A -> B) l : (forall a, In a l -> f a = Ok (g a)) -> mapM f l = Ok (map g l).
Proof.
  induction l as [|a l IH]; intros H; [reflexivity|]. cbn [mapM map]. rewrite H by (left; reflexivity). cbn [bind].
  rewrite IH; [reflexivity|]. intros b Hb. apply H. right; exact Hb.
Qed.

Lemma index_e_map_seq {A} (f : nat -> A) n i : i < n -> index_e (map f (seq 0 n)) i = Ok (f i).
Proof.
  intros Hi. unfold index_e. rewrite nth_error_map.
  rewrite (nth_error_nth' (seq 0 n) 0) by (rewrite seq_length; exact Hi). cbn. rewrite seq_nth by exact Hi. reflexivity.
Qed.
Lemma index_e_app {A} (l l' : list A) i : i < length l -> index_e (l ++ l') i = index_e l i.
Proof. intros Hi. unfold index_e. rewrite nth_error_app1 by exact Hi. reflexivity. Qed.

(** * [process_results] *)
Lemma process_out_string d T bits : 2 <= d -> 1 <= T ->
  process_string d T (out_string d T bits) = Ok (dec_string d T (lit d T bits)).
Proof.
  intros Hd HT. unfold out_string.
  rewrite reg_strings_repeat, rev_app_distr. cbn [rev app].
  set (links := map _ (seq 0 T)). set (cs := rev (map _ (seq 0 d))).
  assert (Ecs : cs = map (fun i => bit_char (codebit d T bits (d - 1 - i))) (seq 0 d)).
  { unfold cs. rewrite rev_map_seq. reflexivity. }
  assert (Hlen : length cs = d) by (rewrite Ecs, map_length, seq_length; reflexivity).
  set (srow := fun r => map (fun e => bit_char (srd d T bits r (d - 2 - e))) (seq 0 (d - 1))).
  assert (Elinks : links = map srow (seq 0 T)).
  { unfold links. apply map_ext_in. intros t Ht. apply in_seq in Ht. rewrite rev_map_seq. unfold srow.
    apply map_ext_in. intros e He. apply in_seq in He. f_equal. unfold srd. destruct (Nat.ltb_spec t T); [|lia]. f_equal. lia. }
  assert (Hrl : rev links <> []).
  { intros E. apply (f_equal (@length _)) in E. unfold links in E. rewrite rev_length, map_length, seq_length in E. cbn in E. lia. }
  assert (Ejoin : join [sp] (cs :: rev links) = cs ++ sp :: join [sp] (rev links)).
  { destruct (rev links); [congruence | reflexivity]. }
  rewrite Ejoin. clear Ejoin. unfold process_string.
  assert (Hidx : forall i, i < d -> index_e (cs ++ sp :: join [sp] (rev links)) i = Ok (bit_char (codebit d T bits (d - 1 - i)))).
  { intros i Hi. rewrite index_e_app by lia. rewrite Ecs, index_e_map_seq by exact Hi. reflexivity. }
  rewrite !Hidx by lia. cbn [bind].
  rewrite (mapM_Ok _ (fun e => bit_char (srd d T bits T (d - 2 - e)))).
  2:{ intros j Hj. apply in_seq in Hj. rewrite !Hidx by lia. cbn [bind]. rewrite eqb_bit_char. f_equal. f_equal.
      unfold srd. rewrite Nat.ltb_irrefl. unfold syn.
      replace (d - 2 - j + 1) with (d - 1 - j) by lia. replace (d - 1 - (j + 1)) with (d - 2 - j) by lia. apply xorb_comm. }
  cbn [bind]. fold (srow T).
  replace (skipn d (cs ++ sp :: join [sp] (rev links))) with (sp :: join [sp] (rev links)).
  2:{ rewrite <- Hlen at 1. rewrite skipn_exact. reflexivity. }
  assert (Ejoin : srow T ++ sp :: join [sp] (rev links) = join [sp] (srow T :: rev links)).
  { destruct (rev links); [congruence | reflexivity]. }
  rewrite Ejoin. clear Ejoin. rewrite split_join.
  2: discriminate.
  2:{ constructor; [apply bit_map_nosp|]. apply Forall_rev. rewrite Elinks. apply Forall_forall. intros s Hs.
      apply in_map_iff in Hs as (t & <- & _). apply bit_map_nosp. }
  assert (Erev : rev (srow T :: rev links) = map srow (seq 0 (T + 1))).
  { cbn [rev]. rewrite rev_involutive, Elinks. replace (T + 1) with (S T) by lia. rewrite seq_S, map_app. reflexivity. }
  rewrite (mapM_Ok _ (row d (lit d T bits))).
  - cbn [bind]. unfold dec_string. f_equal. cbn [app lit L0 L1]. rewrite removelast_join.
    + rewrite Nat.sub_0_r, Nat.sub_diag. reflexivity.
    + intros E. apply (f_equal (@length _)) in E. rewrite map_length, seq_length in E. cbn in E. lia.
  - intros t Ht. apply in_seq in Ht. unfold row. apply mapM_Ok. intros e He. apply in_seq in He. cbn [lit].
    destruct (Nat.eqb_spec t 0) as [->|Hn].
    + rewrite index_back_rev, Erev by lia. cbn [Nat.sub]. rewrite index_e_map_seq by lia. cbn [bind]. unfold srow.
      rewrite index_e_map_seq by lia. cbn [bind]. rewrite eqb_bit_char0, xorb_false_r. reflexivity.
    + rewrite index_back_rev, Erev by lia. rewrite index_e_map_seq by lia. cbn [bind]. unfold srow at 1.
      rewrite index_e_map_seq by lia. cbn [bind]. rewrite index_back_rev, Erev by lia.
      rewrite index_e_map_seq by lia. cbn [bind]. unfold srow. rewrite index_e_map_seq by lia. cbn [bind].
      rewrite eqb_bit_char. replace (t + 1 - 1) with t by lia. rewrite xorb_comm. reflexivity.
Qed.

(** * Nodes *)
Lemma split_dec_string d T f : 2 <= d ->
  separate_string (dec_string d T f) = [[[bit_char (f L0)]; [bit_char (f L1)]]; map (row d f) (seq 0 (T + 1))].
Proof.
  intros Hd. unfold separate_string, dec_string.
  set (a := bit_char (f L0)). set (b := bit_char (f L1)). set (rs := map (row d f) (seq 0 (T + 1))).
  assert (Ha : a <> sp) by apply bit_char_nosp. assert (Hb : b <> sp) by apply bit_char_nosp.
  assert (Hrs : Forall nospace rs /\ Forall (fun s => s <> []) rs /\ rs <> []).
  { repeat split.
    - apply Forall_forall. intros s Hs. apply in_map_iff in Hs as (t & <- & _). apply bit_map_nosp.
    - apply Forall_forall. intros s Hs. apply in_map_iff in Hs as (t & <- & _). unfold row.
      intros E. apply (f_equal (@length _)) in E. rewrite map_length, seq_length in E. cbn in E. lia.
    - intros E. apply (f_equal (@length _)) in E. unfold rs in E. rewrite map_length, seq_length in E. cbn in E. lia. }
  destruct Hrs as (H1 & H2 & H3).
  assert (E : split_dsp ([a; sp; b; sp; sp] ++ join [sp] rs) = [[a; sp; b]; join [sp] rs]).
  { unfold split_dsp. cbn [app split2]. destruct (eqb_spec a sp); [contradiction|]. cbn [andb].
    rewrite eqb_refl. destruct (eqb_spec b sp); [contradiction|]. cbn [andb].
    rewrite split2_nodsp by (apply join_nodsp; assumption). reflexivity. }
  rewrite E. cbn [map]. rewrite split_join by assumption. f_equal.
  change [a; sp; b] with (join [sp] [[a]; [b]]). apply split_join; [discriminate|].
  repeat constructor; intros [X|[]]; contradiction.
Qed.

Lemma combine_seq_map {A} (f : nat -> A) i n : combine (seq i n) (map f (seq i n)) = map (fun t => (t, f t)) (seq i n).
Proof. revert i; induction n as [|n IH]; intros i; [reflexivity|]. cbn. rewrite IH. reflexivity. Qed.
Lemma enum_map_seq {A} (f : nat -> A) n : enum (map f (seq 0 n)) = map (fun i => (i, f i)) (seq 0 n).
Proof. unfold enum. rewrite map_length, seq_length. apply combine_seq_map. Qed.

Lemma flat_map_map {A B C} (f : B -> list C) (g : A -> B) l : flat_map f (map g l) = flat_map (fun a => f (g a)) l.
Proof. induction l; cbn; congruence. Qed.
Lemma filter_flat_map {A B} (p : B -> bool) (f : A -> list B) l :
  filter p (flat_map f l) = flat_map (fun a => filter p (f a)) l.
Proof. induction l as [|a l IH]; [reflexivity|]. cbn. rewrite filter_app, IH. reflexivity. Qed.
Lemma filter_map_flat {A B} (p : B -> bool) (g : A -> B) l :
  filter p (map g l) = flat_map (fun a => if p (g a) then [g a] else []) l.
Proof. induction l as [|a l IH]; [reflexivity|]. cbn. rewrite IH. destruct (p (g a)); reflexivity. Qed.
Lemma flat_map_ext_in {A B} (f g : A -> list B) l : (forall a, In a l -> f a = g a) -> flat_map f l = flat_map g l.
Proof. intros H. rewrite !flat_map_concat_map. f_equal. apply map_ext_in, H. Qed.

Lemma select_nodes_dec keep d T f : 2 <= d ->
  select_nodes keep (dec_string d T f) = filter (fun n => keep (hd 0 n) (bit_char (f n))) (allnodes d T).
Proof.
  intros Hd. unfold select_nodes. rewrite split_dec_string by exact Hd.
  unfold enum at 3. cbn [length seq combine flat_map].
  rewrite enum_map_seq, flat_map_map. rewrite app_nil_r.
  unfold allnodes. cbn [filter hd L0 L1]. unfold enum. cbn [length seq combine flat_map app].
  fold L0 L1. rewrite filter_flat_map. rewrite !app_nil_r.
  assert (E : flat_map (fun t => flat_map (fun '(e, c) => if keep 1 c then [[1; t; e]] else [])
               (combine (seq 0 (length (row d f t))) (row d f t))) (seq 0 (T + 1))
     = flat_map (fun t => filter (fun n => keep (hd 0 n) (bit_char (f n))) (map (fun e => [1; t; e]) (seq 0 (d - 1)))) (seq 0 (T + 1))).
  { apply flat_map_ext_in. intros t _. rewrite filter_map_flat. unfold row at 1. rewrite map_length, seq_length. unfold row.
    rewrite combine_seq_map, flat_map_map. apply flat_map_ext_in. intros e _. reflexivity. }
  rewrite E. destruct (keep 0 (bit_char (f L0))), (keep 0 (bit_char (f L1))); reflexivity.
Qed.

Lemma string2nodes_dec d T f : 2 <= d -> string2nodes (dec_string d T f) = filter f (allnodes d T).
Proof.
  intros Hd. unfold string2nodes. rewrite select_nodes_dec by exact Hd. apply filter_ext. intros n. apply eqb_bit_char1.
Qed.

Lemma allnodes_In d T n : In n (allnodes d T) <->
  n = L0 \/ n = L1 \/ exists t e, n = [1; t; e] /\ t <= T /\ e < d - 1.
Proof.
  unfold allnodes. cbn [In]. rewrite in_flat_map. split.
  - intros [<-|[<-|(t & Ht & Hn)]]; [auto..|]. apply in_map_iff in Hn as (e & <- & He). apply in_seq in Ht, He.
    right; right. exists t, e. repeat split; lia.
  - intros [->|[->|(t & e & -> & Ht & He)]]; [auto..|]. right; right. exists t. split; [apply in_seq; lia|].
    apply in_map_iff. exists e. split; [reflexivity | apply in_seq; lia].
Qed.

Lemma NoDup_app_intro {A} (l l' : list A) : NoDup l -> NoDup l' -> (forall x, In x l -> ~ In x l') -> NoDup (l ++ l').
Proof.
  induction 1 as [|a l Ha Hl IH]; intros Hl' Hd; [exact Hl'|]. cbn. constructor.
  - rewrite in_app_iff. intros [H|H]; [auto|]. apply (Hd a); [left; reflexivity | exact H].
  - apply IH; [exact Hl'|]. intros x Hx. apply Hd. right; exact Hx.
Qed.

Lemma allnodes_NoDup d T : NoDup (allnodes d T).
Proof.
  unfold allnodes. constructor; [|constructor].
  - cbn [In]. rewrite in_flat_map. intros [E|(t & _ & Hn)]; [discriminate|]. apply in_map_iff in Hn as (e & E & _). discriminate.
  - rewrite in_flat_map. intros (t & _ & Hn). apply in_map_iff in Hn as (e & E & _). discriminate.
  - assert (H : forall k i, NoDup (flat_map (fun t => map (fun e => [1; t; e]) (seq 0 (d - 1))) (seq i k))).
    { induction k as [|k IH]; intros i; cbn [seq flat_map]; [constructor|]. apply NoDup_app_intro.
      - apply FinFun.Injective_map_NoDup; [|apply seq_NoDup]. intros a b [= ->]. reflexivity.
      - apply IH.
      - intros n Hn Hn'. apply in_map_iff in Hn as (e & <- & _). apply in_flat_map in Hn' as (t & Ht & Hn').
        apply in_map_iff in Hn' as (e' & E & _). injection E as -> ->. apply in_seq in Ht. lia. }
    apply H.
Qed.

Lemma run_string_out d T body : 1 <= T ->
  run_string (rc_cregs (repetition_code d T)) body = out_string d T (cb (exec body all_zero)).
Proof. intros HT. destruct (code_shape d T HT) as (_ & _ & -> & _). reflexivity. Qed.
