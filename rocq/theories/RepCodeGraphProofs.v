(** Nodes lit by faults, and the syndrome graph. *)
From Verif Require Import Base BasisSem RepCodeModel RepCodeSpec RepCodeCircProofs RepCodeFaultProofs RepCodeStringProofs.

(** * Linearity of [lit] *)
Lemma lit_xor d T a b n : lit d T (fun i => xorb (a i) (b i)) n = xorb (lit d T a n) (lit d T b n).
Proof.
  assert (Hs : forall r j, srd d T (fun i => xorb (a i) (b i)) r j = xorb (srd d T a r j) (srd d T b r j)).
  { intros r j. unfold srd, syn, codebit. destruct (r <? T); [reflexivity|].
    destruct (a (T * (d - 1) + j)), (a (T * (d - 1) + (j + 1))), (b (T * (d - 1) + j)), (b (T * (d - 1) + (j + 1))); reflexivity. }
  unfold lit.
  repeat match goal with |- context [match ?x with _ => _ end] => destruct x; try reflexivity end; rewrite ?Hs.
  - rewrite !xorb_false_r. reflexivity.
  - destruct (srd d T a _ _), (srd d T b _ _), (srd d T a _ _), (srd d T b _ _); reflexivity.
Qed.

Lemma lit_ext d T a b n : (forall i, a i = b i) -> lit d T a n = lit d T b n.
Proof.
  intros H.
  assert (Hs : forall r j, srd d T a r j = srd d T b r j).
  { intros r j. unfold srd, syn, codebit. rewrite !H. reflexivity. }
  unfold lit, codebit.
  repeat match goal with |- context [match ?x with _ => _ end] => destruct x; try reflexivity end; rewrite ?Hs, ?H; reflexivity.
Qed.

Lemma lit_zero d T n : lit d T (fun _ => false) n = false.
Proof.
  assert (Hs : forall r j, srd d T (fun _ => false) r j = false).
  { intros r j. unfold srd, syn, codebit. destruct (r <? T); reflexivity. }
  unfold lit, codebit.
  repeat match goal with |- context [match ?x with _ => _ end] => destruct x; try reflexivity end; rewrite ?Hs; reflexivity.
Qed.

Lemma lit_xsum {A} d T (f : A -> nat -> bool) (l : list A) n :
  lit d T (fun i => xsum (map (fun a => f a i) l)) n = xsum (map (fun a => lit d T (f a) n) l).
Proof.
  induction l as [|a l IH].
  - apply lit_zero.
  - unfold xsum in *. cbn [map fold_right]. rewrite lit_xor, IH. reflexivity.
Qed.

(** The bits flipped by one fault. *)
Definition fault_bits (body : list instr) (f : fault) (i : nat) : bool :=
  let '(j, q, p) := f in flips p && cb (exec (noxb (skipn j body)) (unitq q)) i.

Lemma faulty_lit d T b fs n : 1 <= T ->
  let body := rc_circ (repetition_code d T) b in
  Forall (fault_ok body) fs ->
  lit d T (cb (exec (with_faults fs 0 body) all_zero)) n
  = xorb (lit d T (cb (exec body all_zero)) n) (xsum (map (fun f => lit d T (fault_bits body f) n) fs)).
Proof.
  intros HT body Hok.
  rewrite (lit_ext _ _ _ (fun i => xorb (cb (exec body all_zero) i) (xsum (map (fun f => fault_bits body f i) fs)))).
  - rewrite (lit_xor d T (cb (exec body all_zero))), lit_xsum. reflexivity.
  - intros i. rewrite superposition. f_equal. apply xsum_ext. intros [[j q] p] Hf.
    rewrite Forall_forall in Hok. destruct (Hok _ Hf) as (g & Hg & _).
    assert (j < length body) by (apply nth_error_Some; congruence).
    unfold contrib, fault_bits. cbn [Nat.leb]. rewrite Nat.sub_0_r, Bool.andb_true_r.
    destruct (Nat.ltb_spec j (0 + length body)); [|lia]. rewrite Bool.andb_true_r. reflexivity.
Qed.

(** * Closed form of the nodes of one fault *)
Lemma srd_effect d T bits t m c r j : effect d T bits t m c -> r <= T -> j < d - 1 ->
  srd d T bits r j = if r <? T then (if r <? t then false else if r =? t then m j else syn c j) else syn c j.
Proof.
  intros [E1 E2] Hr Hj. unfold srd. destruct (Nat.ltb_spec r T); [apply E1; assumption|].
  unfold syn, codebit. rewrite !E2 by lia. reflexivity.
Qed.

(** Nodes by position along the chain of code qubits: 0 is the first logical
    node, [d] the second. *)
Definition node_at (d r pos : nat) : node := if pos =? 0 then L0 else if pos =? d then L1 else [1; r; pos - 1].

Inductive edge_shape (d T : nat) : node -> node -> Prop :=
| ES_time t e : t < T -> e < d - 1 -> edge_shape d T [1; t; e] [1; t + 1; e]
| ES_space p r1 r2 : p < d -> r1 <= T -> r2 <= T -> edge_shape d T (node_at d r1 p) (node_at d r2 (p + 1)).

Lemma node_eqb (a b c a' b' c' : nat) : eqb [a; b; c] [a'; b'; c'] = (a =? a') && ((b =? b') && (c =? c')).
Proof.
  unfold eqb. cbn. unfold eqb; cbn. rewrite Bool.andb_true_r. reflexivity.
Qed.

Ltac nodecase :=
  repeat match goal with
  | |- context [?x =? ?y] => destruct (Nat.eqb_spec x y); try lia
  | |- context [?x <? ?y] => destruct (Nat.ltb_spec x y); try lia
  end.

Lemma effect_lit_link d T bits t j : 2 <= d -> t < T -> j < d - 1 -> effect d T bits t (only j) nothing ->
  forall n, In n (allnodes d T) -> lit d T bits n = eqb n [1; t; d - 2 - j] || eqb n [1; t + 1; d - 2 - j].
Proof.
  intros Hd Ht Hj He n Hn. apply allnodes_In in Hn as [->|[->|(r & e & -> & Hr & Hle)]].
  - cbn [lit L0]. unfold L0. rewrite !node_eqb. cbn. unfold codebit. rewrite (proj2 He) by lia. reflexivity.
  - cbn [lit L1]. unfold L1. rewrite !node_eqb. cbn. unfold codebit. rewrite (proj2 He) by lia. reflexivity.
  - cbn [lit]. rewrite !node_eqb. cbn [Nat.eqb andb].
    assert (Hs : forall r', r' <= T -> srd d T bits r' (d - 2 - e) = (r' =? t) && (e =? d - 2 - j)).
    { intros r' Hr'. rewrite (srd_effect _ _ _ _ _ _ _ _ He Hr') by lia. unfold only, nothing, syn.
      nodecase; reflexivity. }
    rewrite !Hs by lia. nodecase; reflexivity.
Qed.

Lemma effect_lit_none d T bits t : 2 <= d -> effect d T bits t nothing nothing ->
  forall n, In n (allnodes d T) -> lit d T bits n = false.
Proof.
  intros Hd He n Hn. apply allnodes_In in Hn as [->|[->|(r & e & -> & Hr & Hle)]]; cbn [lit L0 L1].
  - unfold codebit. rewrite (proj2 He) by lia. reflexivity.
  - unfold codebit. rewrite (proj2 He) by lia. reflexivity.
  - rewrite !(srd_effect _ _ _ _ _ _ _ _ He) by lia. unfold syn, nothing. nodecase; reflexivity.
Qed.

Lemma syn_only d q e : q < d -> e < d - 1 ->
  syn (only q) (d - 2 - e) = ((e + 1 =? d - 1 - q) || (e =? d - 1 - q)).
Proof. intros Hq He. unfold syn, only. nodecase; reflexivity. Qed.

Lemma effect_lit_code d T bits t q m : 2 <= d -> t <= T -> q < d -> effect d T bits t m (only q) ->
  (forall j, j < d - 1 -> m j = true -> syn (only q) j = true) ->
  (t = T -> forall j, j < d - 1 -> m j = syn (only q) j) ->
  exists r1 r2, r1 <= T /\ r2 <= T /\ ((forall j, j < d - 1 -> m j = syn (only q) j) -> r1 = t /\ r2 = t) /\
  forall n, In n (allnodes d T) -> lit d T bits n = eqb n (node_at d r1 (d - 1 - q)) || eqb n (node_at d r2 (d - 1 - q + 1)).
Proof.
  intros Hd Ht Hq He Hm HmT.
  (* the link to the left of the qubit (if any) is [q], the one to its right [q-1] *)
  set (r1 := if (q <? d - 1) && negb (m q) then t + 1 else t).
  set (r2 := if (0 <? q) && negb (m (q - 1)) then t + 1 else t).
  assert (Hq1 : q < d - 1 -> syn (only q) q = true) by (intros; unfold syn, only; nodecase; reflexivity).
  assert (Hq2 : 0 < q -> syn (only q) (q - 1) = true) by (intros; unfold syn, only; nodecase; reflexivity).
  assert (Hr1 : r1 <= T).
  { unfold r1. destruct (Nat.ltb_spec q (d - 1)); cbn [andb]; [|lia]. destruct (m q) eqn:E; cbn [negb]; [lia|].
    destruct (Nat.eq_dec t T) as [->|]; [|lia]. rewrite HmT, Hq1 in E by (reflexivity || lia). discriminate. }
  assert (Hr2 : r2 <= T).
  { unfold r2. destruct (Nat.ltb_spec 0 q); cbn [andb]; [|lia]. destruct (m (q - 1)) eqn:E; cbn [negb]; [lia|].
    destruct (Nat.eq_dec t T) as [->|]; [|lia]. rewrite HmT, Hq2 in E by (reflexivity || lia). discriminate. }
  exists r1, r2. split; [exact Hr1|]. split; [exact Hr2|]. split.
  { intros Hs. unfold r1, r2. split.
    - destruct (Nat.ltb_spec q (d - 1)); cbn [andb]; [|lia]. rewrite Hs, Hq1 by lia. reflexivity.
    - destruct (Nat.ltb_spec 0 q); cbn [andb]; [|lia]. rewrite Hs, Hq2 by lia. reflexivity. }
  intros n Hn. unfold node_at. apply allnodes_In in Hn as [->|[->|(r & e & -> & Hr & Hle)]].
  - cbn [lit L0]. unfold codebit. rewrite (proj2 He) by lia. unfold only.
    destruct (Nat.eqb_spec (d - 1) q) as [<-|Hne].
    + replace (d - 1 - (d - 1)) with 0 by lia. reflexivity.
    + destruct (Nat.eqb_spec (d - 1 - q) 0); [lia|]. destruct (Nat.eqb_spec (d - 1 - q) d); [lia|].
      destruct (Nat.eqb_spec (d - 1 - q + 1) 0); [lia|]. destruct (Nat.eqb_spec (d - 1 - q + 1) d); reflexivity.
  - cbn [lit L1]. unfold codebit. rewrite (proj2 He) by lia. unfold only.
    destruct (Nat.eqb_spec (d - 1 - q) d); [lia|]. destruct (Nat.eqb_spec (d - 1 - q + 1) 0); [lia|].
    destruct (Nat.eqb_spec 0 q) as [<-|Hne].
    + destruct (Nat.eqb_spec (d - 1 - 0 + 1) d); [|lia]. rewrite eqb_refl, Bool.orb_true_r. reflexivity.
    + destruct (Nat.eqb_spec (d - 1 - q + 1) d); [lia|]. destruct (Nat.eqb_spec (d - 1 - q) 0); reflexivity.
  - cbn [lit].
    assert (Hs : forall r', r' <= T -> srd d T bits r' (d - 2 - e)
              = ((e + 1 =? d - 1 - q) && (r1 <=? r')) || ((e =? d - 1 - q) && (r2 <=? r'))).
    { intros r' Hr'. rewrite (srd_effect _ _ _ _ _ _ _ _ He Hr') by lia. rewrite syn_only by lia.
      assert (Hm' : m (d - 2 - e) = ((e + 1 =? d - 1 - q) && (r1 <=? t)) || ((e =? d - 1 - q) && (r2 <=? t))).
      { unfold r1, r2.
        destruct (Nat.eqb_spec (e + 1) (d - 1 - q)).
        - replace (d - 2 - e) with q by lia. destruct (Nat.eqb_spec e (d - 1 - q)); [lia|].
          destruct (Nat.ltb_spec q (d - 1)); [|lia]. cbn [andb orb]. rewrite Bool.orb_false_r.
          destruct (m q); cbn [negb]; symmetry; [apply Nat.leb_le | apply Nat.leb_gt]; lia.
        - cbn [andb orb]. destruct (Nat.eqb_spec e (d - 1 - q)).
          + replace (d - 2 - e) with (q - 1) by lia. destruct (Nat.ltb_spec 0 q); [|lia]. cbn [andb].
            destruct (m (q - 1)); cbn [negb]; symmetry; [apply Nat.leb_le | apply Nat.leb_gt]; lia.
          + cbn [andb]. apply Bool.not_true_iff_false. intros E. apply Hm in E; [|lia]. rewrite syn_only in E by lia.
            apply orb_true_iff in E as [E|E]; apply Nat.eqb_eq in E; lia. }
      assert (Hb1 : t <= r1 <= t + 1) by (clear; unfold r1; destruct ((q <? d - 1) && negb (m q)); lia).
      assert (Hb2 : t <= r2 <= t + 1) by (clear; unfold r2; destruct ((0 <? q) && negb (m (q - 1))); lia).
      rewrite Hm'.
      destruct (Nat.ltb_spec r' T).
      - destruct (Nat.ltb_spec r' t).
        + destruct (Nat.leb_spec r1 r'); [lia|]. destruct (Nat.leb_spec r2 r'); [lia|]. rewrite !Bool.andb_false_r. reflexivity.
        + destruct (Nat.eqb_spec r' t) as [->|]; [reflexivity|].
          destruct (Nat.leb_spec r1 r'); [|lia]. destruct (Nat.leb_spec r2 r'); [|lia]. rewrite !Bool.andb_true_r. reflexivity.
      - destruct (Nat.leb_spec r1 r'); [|lia]. destruct (Nat.leb_spec r2 r'); [|lia]. rewrite !Bool.andb_true_r. reflexivity. }
    rewrite Hs by lia.
    assert (Hs' : (if r =? 0 then false else srd d T bits (r - 1) (d - 2 - e))
       = ((e + 1 =? d - 1 - q) && (r1 <? r)) || ((e =? d - 1 - q) && (r2 <? r))).
    { destruct (Nat.eqb_spec r 0) as [->|].
      - replace (r1 <? 0) with false by reflexivity. replace (r2 <? 0) with false by reflexivity. rewrite !Bool.andb_false_r. reflexivity.
      - rewrite Hs by lia.
        replace (r1 <=? r - 1) with (r1 <? r) by (destruct (Nat.ltb_spec r1 r), (Nat.leb_spec r1 (r - 1)); lia || reflexivity).
        replace (r2 <=? r - 1) with (r2 <? r) by (destruct (Nat.ltb_spec r2 r), (Nat.leb_spec r2 (r - 1)); lia || reflexivity).
        reflexivity. }
    rewrite Hs'. clear Hs Hs' He Hm HmT Hq1 Hq2. clearbody r1 r2.
    assert (E1 : eqb [1; r; e] (if d - 1 - q =? 0 then L0 else if d - 1 - q =? d then L1 else [1; r1; d - 1 - q - 1])
              = (r =? r1) && (e + 1 =? d - 1 - q)).
    { destruct (Nat.eqb_spec (d - 1 - q) 0); [|destruct (Nat.eqb_spec (d - 1 - q) d); [lia|]]; unfold L0; rewrite node_eqb; cbn [Nat.eqb andb].
      - destruct (Nat.eqb_spec (e + 1) (d - 1 - q)); [lia|]. rewrite Bool.andb_false_r. reflexivity.
      - f_equal. nodecase; reflexivity. }
    assert (E2 : eqb [1; r; e] (if d - 1 - q + 1 =? 0 then L0 else if d - 1 - q + 1 =? d then L1 else [1; r2; d - 1 - q + 1 - 1])
              = (r =? r2) && (e =? d - 1 - q)).
    { destruct (Nat.eqb_spec (d - 1 - q + 1) 0); [lia|]. destruct (Nat.eqb_spec (d - 1 - q + 1) d); unfold L1; rewrite node_eqb; cbn [Nat.eqb andb].
      - destruct (Nat.eqb_spec e (d - 1 - q)); [lia|]. rewrite Bool.andb_false_r. reflexivity.
      - f_equal. nodecase; reflexivity. }
    etransitivity; [|symmetry; apply f_equal2; [exact E1 | exact E2]]. clear E1 E2.
    assert (X1 : (r =? r1) = xorb (r1 <=? r) (r1 <? r)).
    { destruct (Nat.leb_spec r1 r), (Nat.ltb_spec r1 r), (Nat.eqb_spec r r1); reflexivity || (exfalso; lia). }
    assert (X2 : (r =? r2) = xorb (r2 <=? r) (r2 <? r)).
    { destruct (Nat.leb_spec r2 r), (Nat.ltb_spec r2 r), (Nat.eqb_spec r r2); reflexivity || (exfalso; lia). }
    rewrite X1, X2.
    assert (X3 : (e + 1 =? d - 1 - q) && (e =? d - 1 - q) = false).
    { destruct (Nat.eqb_spec (e + 1) (d - 1 - q)), (Nat.eqb_spec e (d - 1 - q)); reflexivity || (exfalso; lia). }
    destruct (e + 1 =? d - 1 - q), (e =? d - 1 - q), (r1 <=? r), (r1 <? r), (r2 <=? r), (r2 <? r); reflexivity || discriminate.
Qed.

Lemma edge_shape_neq d T u v : edge_shape d T u v -> u <> v.
Proof.
  intros [t e Ht He|p r1 r2 Hp H1 H2] E; [injection E; lia|].
  unfold node_at in E. destruct (Nat.eqb_spec p 0), (Nat.eqb_spec p d), (Nat.eqb_spec (p + 1) 0), (Nat.eqb_spec (p + 1) d); try lia;
    try discriminate; injection E; lia.
Qed.

Lemma node_at_In d T r p : r <= T -> p <= d -> In (node_at d r p) (allnodes d T).
Proof.
  intros Hr Hp. apply allnodes_In. unfold node_at.
  destruct (Nat.eqb_spec p 0); [auto|]. destruct (Nat.eqb_spec p d); [auto|].
  right; right. exists r, (p - 1). repeat split; lia.
Qed.

Lemma edge_shape_In d T u v : edge_shape d T u v -> In u (allnodes d T) /\ In v (allnodes d T).
Proof.
  intros [t e Ht He|p r1 r2 Hp H1 H2].
  - split; apply allnodes_In; right; right; eexists _, _; (split; [reflexivity|]); lia.
  - split; apply node_at_In; lia.
Qed.

(** Every single fault lights no node, or the two ends of an edge. *)
Lemma fault_nodes d T b f : 2 <= d -> 1 <= T ->
  let body := rc_circ (repetition_code d T) b in
  fault_ok body f ->
  (forall n, In n (allnodes d T) -> lit d T (fault_bits body f) n = false) \/
  (exists u v, edge_shape d T u v /\
     forall n, In n (allnodes d T) -> lit d T (fault_bits body f) n = eqb n u || eqb n v).
Proof.
  intros Hd HT body Hok. destruct f as [[j q] p]. destruct (flips p) eqn:Ep.
  2:{ left. intros n _. rewrite (lit_ext _ _ _ (fun _ => false)); [apply lit_zero|].
      intros i. unfold fault_bits. rewrite Ep. reflexivity. }
  destruct (fault_effect d T b j q p HT Hok) as (t & m & c & Hk & He). fold body in He.
  assert (He' : effect d T (fault_bits body (j, q, p)) t m c).
  { eapply effect_ext; [exact He|]. intros i. unfold fault_bits. rewrite Ep. reflexivity. }
  destruct Hk as [t|t k Ht Hk|t k m Ht Hk Hm HmT].
  - left. apply (effect_lit_none d T _ t Hd He').
  - right. exists [1; t; d - 2 - k], [1; t + 1; d - 2 - k]. split; [apply ES_time; lia|].
    apply (effect_lit_link d T _ t k Hd Ht Hk He').
  - right. destruct (effect_lit_code d T _ t k m Hd Ht Hk He' Hm HmT) as (r1 & r2 & H1 & H2 & _ & Hl).
    exists (node_at d r1 (d - 1 - k)), (node_at d r2 (d - 1 - k + 1)). split; [apply ES_space; lia | exact Hl].
Qed.

(** * One fault: the model's [error_circuit] *)
Lemma with_faults_none fs body : forall pos, (forall j q p, In (j, q, p) fs -> j < pos) -> with_faults fs pos body = body.
Proof.
  induction body as [|g b IH]; intros pos H; [reflexivity|]. cbn [with_faults].
  rewrite IH by (intros j q p Hi; specialize (H j q p Hi); lia).
  replace (flat_map _ fs) with (@nil instr); [reflexivity|]. clear IH. symmetry.
  induction fs as [|[[j q] p] fs IH]; [reflexivity|]. cbn [flat_map].
  destruct (Nat.eqb_spec j pos) as [E|E]; [specialize (H j q p (or_introl eq_refl)); lia|]. cbn [andb app].
  apply IH. intros j' q' p' Hi. apply (H j' q' p'). right; exact Hi.
Qed.

Lemma error_circuit_faults body j q p : j < length body ->
  error_circuit body j q p = with_faults [(j, q, p)] 0 body.
Proof.
  intros Hj. unfold error_circuit.
  assert (H : forall k pos body, j = pos + k -> k < length body ->
     firstn k body ++ pauli_instrs p q ++ skipn k body = with_faults [(j, q, p)] pos body).
  { induction k as [|k IH]; intros pos b E Hlt.
    - destruct b as [|g b]; [cbn in Hlt; lia|]. cbn [with_faults flat_map firstn skipn app].
      destruct (Nat.eqb_spec j pos); [|lia]. rewrite with_faults_none.
      + destruct p; reflexivity.
      + intros j' q' p' [[= <- _ _]|[]]. lia.
    - destruct b as [|g b]; [cbn in Hlt; lia|]. cbn [with_faults flat_map firstn skipn app].
      destruct (Nat.eqb_spec j pos); [lia|]. cbn [andb app]. f_equal. apply IH; cbn in Hlt; lia. }
  apply (H j 0); [lia | exact Hj].
Qed.

Lemma noiseless_lit d T b n : 2 <= d -> 1 <= T -> In n (allnodes d T) ->
  lit d T (cb (exec (rc_circ (repetition_code d T) b) all_zero)) n = b && is_logical n.
Proof.
  intros Hd HT Hn. pose proof (noiseless_bits d T b HT) as He.
  apply allnodes_In in Hn as [->|[->|(r & e & -> & Hr & Hle)]]; cbn [lit L0 L1 is_logical].
  - unfold codebit. rewrite (proj2 He), Bool.andb_true_r by lia. reflexivity.
  - unfold codebit. rewrite (proj2 He), Bool.andb_true_r by lia. reflexivity.
  - rewrite !(srd_effect _ _ _ _ _ _ _ _ He) by lia. unfold syn, nothing. rewrite !xorb_nilpotent, Bool.andb_false_r.
    nodecase; reflexivity.
Qed.

Lemma single_fault_string d T b j q p : 2 <= d -> 1 <= T ->
  fault_ok (rc_circ (repetition_code d T) b) (j, q, p) ->
  process_string d T (run_string (rc_cregs (repetition_code d T)) (error_circuit (rc_circ (repetition_code d T) b) j q p))
  = Ok (dec_string d T (lit d T (cb (exec (with_faults [(j, q, p)] 0 (rc_circ (repetition_code d T) b)) all_zero)))).
Proof.
  intros Hd HT Hok. rewrite run_string_out by exact HT. rewrite process_out_string by assumption.
  destruct Hok as (g & Hg & _). rewrite error_circuit_faults; [reflexivity|]. apply nth_error_Some. congruence.
Qed.

Lemma filter_two {A} `{Eqb A} (P : A -> bool) (l : list A) u v :
  NoDup l -> In u l -> In v l -> u <> v -> (forall n, In n l -> P n = eqb n u || eqb n v) ->
  length (filter P l) = 2 /\ (forall n, In n (filter P l) <-> n = u \/ n = v).
Proof.
  intros Hnd Hu Hv Huv HP.
  assert (Hin : forall n, In n (filter P l) <-> n = u \/ n = v).
  { intros n. rewrite filter_In. split.
    - intros [Hn Hp]. rewrite HP in Hp by exact Hn. apply orb_true_iff in Hp as [Hp|Hp]; apply eqb_true in Hp; auto.
    - intros [->| ->]; (split; [assumption|]); rewrite HP, eqb_refl by assumption; [|rewrite Bool.orb_true_r]; reflexivity. }
  split; [|exact Hin].
  assert (Hp : Permutation (filter P l) [u; v]).
  { apply NoDup_Permutation; [apply NoDup_filter, Hnd | |].
    - constructor; [intros [E|[]]; congruence | constructor; [intros [] | constructor]].
    - intros n. rewrite Hin. cbn. intuition congruence. }
  rewrite (Permutation_length Hp). reflexivity.
Qed.

Lemma filter_none {A} (P : A -> bool) (l : list A) : (forall n, In n l -> P n = false) -> filter P l = [].
Proof.
  induction l as [|a l IH]; intros HP; [reflexivity|]. cbn. rewrite HP by (left; reflexivity).
  apply IH. intros n Hn. apply HP. right; exact Hn.
Qed.

Lemma single_lit d T j q p n : 2 <= d -> 1 <= T ->
  let body := rc_circ (repetition_code d T) false in
  fault_ok body (j, q, p) -> In n (allnodes d T) ->
  lit d T (cb (exec (with_faults [(j, q, p)] 0 body) all_zero)) n = lit d T (fault_bits body (j, q, p)) n.
Proof.
  intros Hd HT body Hok Hn. unfold body.
  rewrite (faulty_lit d T false [(j, q, p)] n HT (Forall_cons _ Hok (Forall_nil _))).
  rewrite noiseless_lit by assumption. cbn [andb map xsum fold_right]. rewrite xorb_false_l, xorb_false_r. reflexivity.
Qed.

(** C14. *)
Lemma C14_lemma d T j q p : 2 <= d -> 1 <= T ->
  let c := repetition_code d T in
  fault_ok (rc_circ c false) (j, q, p) ->
  exists s, process_string d T (run_string (rc_cregs c) (error_circuit (rc_circ c false) j q p)) = Ok s /\
    (length (string2nodes s) = 0 \/ length (string2nodes s) = 2).
Proof.
  intros Hd HT c Hok. eexists. split; [apply single_fault_string; assumption|].
  rewrite string2nodes_dec by exact Hd.
  rewrite (filter_ext_in _ (lit d T (fault_bits (rc_circ (repetition_code d T) false) (j, q, p)))).
  2:{ intros n Hn. apply single_lit; assumption. }
  destruct (fault_nodes d T false (j, q, p) Hd HT Hok) as [Hn|(u & v & Hs & Hl)].
  - left. rewrite filter_none by exact Hn. reflexivity.
  - right. destruct (edge_shape_In _ _ _ _ Hs) as [Hu Hv].
    apply (filter_two _ _ u v (allnodes_NoDup d T) Hu Hv (edge_shape_neq _ _ _ _ Hs) Hl).
Qed.

(** * The syndrome graph *)
Lemma error_edges_spec d T shots j q p : 2 <= d -> 1 <= T ->
  let body := rc_circ (repetition_code d T) false in
  fault_ok body (j, q, p) ->
  exists es, error_edges (repetition_code d T) shots j q p = Ok es /\
    forall u v, In (u, v) es <->
      (u <> v /\ In u (allnodes d T) /\ In v (allnodes d T) /\
       lit d T (fault_bits body (j, q, p)) u = true /\ lit d T (fault_bits body (j, q, p)) v = true).
Proof.
  intros Hd HT body Hok. unfold error_edges.
  destruct (code_shape d T HT) as (Ed & ET & _ & _). rewrite Ed, ET.
  destruct (C14_lemma d T j q p Hd HT Hok) as (s & Hs & Hlen).
  change (rc_circ0 (repetition_code d T)) with (rc_circ (repetition_code d T) false).
  unfold process_counts. cbn [foldM fst snd bind]. rewrite Hs. cbn [bind dset dkeys map mapM fst snd].
  unfold dkeys. cbn [map fst mapM].
  assert (Hn2 : (length (string2nodes s) =? 0) || (length (string2nodes s) =? 2) = true).
  { destruct Hlen as [-> | ->]; reflexivity. }
  rewrite Hn2. cbn [bind concat]. eexists. split; [reflexivity|]. rewrite app_nil_r.
  assert (Hnodes : string2nodes s = filter (lit d T (fault_bits body (j, q, p))) (allnodes d T)).
  { rewrite (single_fault_string d T false j q p Hd HT Hok) in Hs. injection Hs as <-.
    rewrite string2nodes_dec by exact Hd. apply filter_ext_in. intros n Hn. apply single_lit; assumption. }
  intros u v. rewrite in_flat_map. split.
  - intros (x & Hx & Hin). apply in_flat_map in Hin as (y & Hy & Hin).
    destruct (eqb_spec x y) as [->|Hxy]; [destruct Hin|]. destruct Hin as [[= <- <-]|[]].
    rewrite Hnodes in Hx, Hy. apply filter_In in Hx as [Hx1 Hx2], Hy as [Hy1 Hy2]. auto.
  - intros (Huv & Hu & Hv & Hlu & Hlv). exists u. rewrite Hnodes. split; [apply filter_In; auto|].
    apply in_flat_map. exists v. split; [apply filter_In; auto|].
    destruct (eqb_spec u v); [contradiction | left; reflexivity].
Qed.

Lemma mapM_concat_spec {A B} (f : A -> result (list B)) (Q : A -> B -> Prop) l :
  (forall a, In a l -> exists bs, f a = Ok bs /\ forall b, In b bs <-> Q a b) ->
  exists bss, mapM f l = Ok bss /\ forall b, In b (concat bss) <-> exists a, In a l /\ Q a b.
Proof.
  induction l as [|a l IH]; intros H.
  - exists []. split; [reflexivity|]. cbn. intros b. split; [intros [] | intros (x & [] & _)].
  - destruct (H a (or_introl eq_refl)) as (bs & Ha & Hb).
    destruct IH as (bss & Hm & Hc); [intros x Hx; apply H; right; exact Hx|].
    exists (bs :: bss). cbn [mapM]. rewrite Ha. cbn [bind]. rewrite Hm. cbn [bind]. split; [reflexivity|].
    intros b. cbn [concat]. rewrite in_app_iff, Hb, Hc. split.
    + intros [Hq|(x & Hx & Hq)]; [exists a | exists x]; split; auto; [left; reflexivity | right; exact Hx].
    + intros (x & [->|Hx] & Hq); [left; exact Hq | right; exists x; auto].
Qed.

Lemma enum_In {A} (l : list A) j a : In (j, a) (enum l) <-> nth_error l j = Some a.
Proof.
  unfold enum.
  assert (H : forall i, In (j, a) (combine (seq i (length l)) l) <-> i <= j /\ nth_error l (j - i) = Some a).
  { induction l as [|b l IH]; intros i; cbn [length seq combine In].
    - split; [intros [] | intros [_ H]; destruct (j - i); discriminate].
    - rewrite IH. split.
      + intros [[= -> ->]|[Hle Hn]]; [split; [lia|]; rewrite Nat.sub_diag; reflexivity|].
        split; [lia|]. replace (j - i) with (S (j - S i)) by lia. exact Hn.
      + intros [Hle Hn]. destruct (Nat.eq_dec i j) as [->|Hne].
        * left. rewrite Nat.sub_diag in Hn. cbn in Hn. congruence.
        * right. split; [lia|]. replace (j - i) with (S (j - S i)) in Hn by lia. exact Hn. }
  rewrite H, Nat.sub_0_r. split; [tauto | intros; split; [lia | assumption]].
Qed.

Lemma syndrome_graph_spec d T shots : 2 <= d -> 1 <= T ->
  let body := rc_circ (repetition_code d T) false in
  exists S, make_syndrome_graph (repetition_code d T) shots = Ok S /\
    forall u v, In (u, v) S <->
      exists j q p, fault_ok body (j, q, p) /\ u <> v /\ In u (allnodes d T) /\ In v (allnodes d T) /\
       lit d T (fault_bits body (j, q, p)) u = true /\ lit d T (fault_bits body (j, q, p)) v = true.
Proof.
  intros Hd HT body. unfold make_syndrome_graph.
  change (rc_circ0 (repetition_code d T)) with body.
  set (Qf := fun (j q : nat) (p : pauli) (e : node * node) => fst e <> snd e /\ In (fst e) (allnodes d T) /\ In (snd e) (allnodes d T) /\
       lit d T (fault_bits body (j, q, p)) (fst e) = true /\ lit d T (fault_bits body (j, q, p)) (snd e) = true).
  destruct (mapM_concat_spec
    (fun ji : nat * instr => let '(j, i) := ji in
       do es <- mapM (fun q =>
            do es <- mapM (fun p => error_edges (repetition_code d T) shots j q p) [PX; PY; PZ]; Ok (concat es))
          (instr_qubits i);
       Ok (concat es))
    (fun ji e => exists q, In q (instr_qubits (snd ji)) /\ exists p, Qf (fst ji) q p e) (enum body)) as (bss & Hm & Hc).
  - intros [j i] Hji. apply enum_In in Hji. cbn [fst snd].
    destruct (mapM_concat_spec (fun q => do es <- mapM (fun p => error_edges (repetition_code d T) shots j q p) [PX; PY; PZ]; Ok (concat es))
      (fun q e => exists p, Qf j q p e) (instr_qubits i)) as (bss & Hm & Hc).
    + intros q Hq.
      destruct (mapM_concat_spec (fun p => error_edges (repetition_code d T) shots j q p) (fun p e => Qf j q p e) [PX; PY; PZ]) as (bss & Hm & Hc).
      * intros p _. destruct (error_edges_spec d T shots j q p Hd HT) as (es & He & Hes).
        { exists i. auto. }
        exists es. split; [exact He|]. intros [u v]. unfold Qf. cbn [fst snd]. apply Hes.
      * rewrite Hm. cbn [bind]. eexists. split; [reflexivity|]. intros e. rewrite Hc. split.
        -- intros (p & _ & H). exists p; exact H.
        -- intros (p & H). exists p. split; [destruct p; cbn; auto | exact H].
    + rewrite Hm. cbn [bind]. eexists. split; [reflexivity|]. intros e. rewrite Hc. reflexivity.
  - rewrite Hm. cbn [bind]. eexists. split; [reflexivity|]. intros u v. rewrite Hc. split.
    + intros ([j i] & Hji & q & Hq & p & HQ). apply enum_In in Hji. unfold Qf in HQ. cbn [fst snd] in *.
      exists j, q, p. split; [exists i; auto | exact HQ].
    + intros (j & q & p & (i & Hi & Hq) & HQ). exists (j, i). split; [apply enum_In, Hi|].
      exists q. split; [exact Hq|]. exists p. exact HQ.
Qed.

(** Edges of the graph, and what they join. *)
Lemma graph_edge_shape d T shots S u v : 2 <= d -> 1 <= T ->
  make_syndrome_graph (repetition_code d T) shots = Ok S -> In (u, v) S -> edge_shape d T u v \/ edge_shape d T v u.
Proof.
  intros Hd HT HS Hin. destruct (syndrome_graph_spec d T shots Hd HT) as (S' & HS' & Hspec).
  rewrite HS in HS'. injection HS' as <-. apply Hspec in Hin as (j & q & p & Hok & Huv & Hu & Hv & Hlu & Hlv).
  destruct (fault_nodes d T false (j, q, p) Hd HT Hok) as [Hn|(a & b & Hs & Hl)].
  - rewrite Hn in Hlu by exact Hu. discriminate.
  - rewrite Hl in Hlu, Hlv by assumption.
    apply orb_true_iff in Hlu as [E|E]; apply orb_true_iff in Hlv as [E'|E']; apply eqb_true in E, E'; subst; try congruence; auto.
Qed.

Lemma fault_bits_eq d T b j q p : flips p = true ->
  forall i, fault_bits (rc_circ (repetition_code d T) b) (j, q, p) i
            = cb (exec (noxb (skipn j (rc_circ (repetition_code d T) b))) (unitq q)) i.
Proof. intros Hp i. unfold fault_bits. rewrite Hp. reflexivity. Qed.

Lemma graph_space d T shots S t p : 2 <= d -> 1 <= T -> t <= T -> p < d ->
  make_syndrome_graph (repetition_code d T) shots = Ok S -> In (node_at d t p, node_at d t (p + 1)) S.
Proof.
  intros Hd HT Ht Hp HS. destruct (syndrome_graph_spec d T shots Hd HT) as (S' & HS' & Hspec).
  rewrite HS in HS'. injection HS' as <-. apply Hspec.
  destruct (realise_code d T t (d - 1 - p) HT Ht ltac:(lia) Hd) as (j & Hok & He).
  assert (He' : effect d T (fault_bits (rc_circ (repetition_code d T) false) (j, codeq d (d - 1 - p), PX)) t (syn (only (d - 1 - p))) (only (d - 1 - p))).
  { eapply effect_ext; [exact He|]. apply fault_bits_eq. reflexivity. }
  destruct (effect_lit_code d T _ t (d - 1 - p) _ Hd Ht ltac:(lia) He' (fun _ _ H => H) (fun _ _ _ => eq_refl)) as (r1 & r2 & _ & _ & Hr & Hl).
  destruct (Hr (fun _ _ => eq_refl)) as [-> ->].
  replace (d - 1 - (d - 1 - p)) with p in Hl by lia.
  assert (Hs : edge_shape d T (node_at d t p) (node_at d t (p + 1))) by (apply ES_space; lia).
  destruct (edge_shape_In _ _ _ _ Hs) as [Hu Hv].
  exists j, (codeq d (d - 1 - p)), PX. repeat split; try assumption.
  - eapply edge_shape_neq, Hs.
  - rewrite Hl, eqb_refl by exact Hu. reflexivity.
  - rewrite Hl, eqb_refl, Bool.orb_true_r by exact Hv. reflexivity.
Qed.

Lemma graph_time d T shots S t e : 2 <= d -> 1 <= T -> t < T -> e < d - 1 ->
  make_syndrome_graph (repetition_code d T) shots = Ok S -> In ([1; t; e], [1; t + 1; e]) S.
Proof.
  intros Hd HT Ht Hp HS. destruct (syndrome_graph_spec d T shots Hd HT) as (S' & HS' & Hspec).
  rewrite HS in HS'. injection HS' as <-. apply Hspec.
  destruct (realise_link d T t (d - 2 - e) HT Ht ltac:(lia)) as (j & Hok & He).
  assert (He' : effect d T (fault_bits (rc_circ (repetition_code d T) false) (j, linkq (d - 2 - e), PX)) t (only (d - 2 - e)) nothing).
  { eapply effect_ext; [exact He|]. apply fault_bits_eq. reflexivity. }
  pose proof (effect_lit_link d T _ t (d - 2 - e) Hd Ht ltac:(lia) He') as Hl.
  replace (d - 2 - (d - 2 - e)) with e in Hl by lia.
  assert (Hs : edge_shape d T [1; t; e] [1; t + 1; e]) by (apply ES_time; lia).
  destruct (edge_shape_In _ _ _ _ Hs) as [Hu Hv].
  exists j, (linkq (d - 2 - e)), PX. repeat split; try assumption.
  - eapply edge_shape_neq, Hs.
  - rewrite Hl, eqb_refl by exact Hu. reflexivity.
  - rewrite Hl, eqb_refl, Bool.orb_true_r by exact Hv. reflexivity.
Qed.

(** Faults of either circuit give edges of the graph. *)
Lemma edge_fault_in_graph d T b shots S f u v : 2 <= d -> 1 <= T ->
  make_syndrome_graph (repetition_code d T) shots = Ok S ->
  fault_ok (rc_circ (repetition_code d T) b) f ->
  edge_shape d T u v ->
  (forall n, In n (allnodes d T) -> lit d T (fault_bits (rc_circ (repetition_code d T) b) f) n = eqb n u || eqb n v) ->
  In (u, v) S.
Proof.
  intros Hd HT HS Hok Hs Hl. destruct f as [[j q] p].
  destruct (edge_shape_In _ _ _ _ Hs) as [Hu Hv].
  assert (Hgoal : forall j', fault_ok (rc_circ (repetition_code d T) false) (j', q, p) ->
     (forall i, fault_bits (rc_circ (repetition_code d T) false) (j', q, p) i = fault_bits (rc_circ (repetition_code d T) b) (j, q, p) i) ->
     In (u, v) S).
  { intros j' Hok' Heq. destruct (syndrome_graph_spec d T shots Hd HT) as (S' & HS' & Hspec).
    rewrite HS in HS'. injection HS' as <-. apply Hspec. exists j', q, p.
    repeat split; try assumption; [eapply edge_shape_neq, Hs| |]; rewrite (lit_ext _ _ _ _ _ Heq), Hl, eqb_refl by assumption;
      [|rewrite Bool.orb_true_r]; reflexivity. }
  destruct b; [|apply (Hgoal j Hok); reflexivity].
  (* logical 1: the preparation gates come first *)
  destruct (code_shape d T HT) as (_ & _ & _ & Hb). pose proof (Hb true) as Hb1. pose proof (Hb false) as Hb0. cbn [prep app] in Hb1, Hb0.
  assert (Hlx : length (x_gates d false) = d) by (unfold x_gates; rewrite app_nil_r, map_length, seq_length; reflexivity).
  destruct Hok as (g & Hg & Hq). rewrite Hb1 in Hg.
  destruct (Nat.lt_ge_cases j d) as [Hjd|Hjd].
  - (* hit before its preparation gate *)
    rewrite nth_error_app1 in Hg by lia.
    unfold x_gates in Hg. rewrite app_nil_r, nth_error_map in Hg.
    rewrite (nth_error_nth' (seq 0 d) 0) in Hg by (rewrite seq_length; exact Hjd). rewrite seq_nth in Hg by exact Hjd.
    cbn in Hg. injection Hg as <-. cbn in Hq. destruct Hq as [<-|[]].
    destruct (flips p) eqn:Ep.
    2:{ exfalso. assert (E : lit d T (fault_bits (rc_circ (repetition_code d T) true) (j, codeq d j, p)) u = false).
        { rewrite (lit_ext _ _ _ (fun _ => false)); [apply lit_zero|]. intros i. unfold fault_bits. rewrite Ep. reflexivity. }
        rewrite Hl, eqb_refl in E by exact Hu. discriminate. }
    assert (He : effect d T (fault_bits (rc_circ (repetition_code d T) true) (j, codeq d j, p)) 0 (syn (only j)) (only j)).
    { eapply effect_ext; [apply (tail_start_effect d T 0 j); lia|]. intros i. rewrite fault_bits_eq by exact Ep.
      rewrite Hb1, skipn_app, Hlx. replace (j - d) with 0 by lia. cbn [skipn]. rewrite noxb_app, exec_app.
      rewrite (noxb_id (tail_gates d T 0)) by apply tail_no_x.
      replace (noxb (skipn j (x_gates d false))) with (repeat IBarrier (length (skipn j (x_gates d false)))); [rewrite exec_barriers; reflexivity|].
      assert (Hx : Forall (fun i => exists q, i = IX q) (skipn j (x_gates d false))).
      { apply Forall_forall. intros x Hx. assert (Hx' : In x (x_gates d false)).
        { rewrite <- (firstn_skipn j). apply in_or_app; right; exact Hx. }
        unfold x_gates in Hx'. rewrite app_nil_r in Hx'. apply in_map_iff in Hx' as (k & <- & _). eexists; reflexivity. }
      clear -Hx. induction Hx as [|x l (k & ->) Hx IH]; [reflexivity|]. cbn. f_equal. exact IH. }
    destruct (effect_lit_code d T _ 0 j _ Hd ltac:(lia) Hjd He (fun _ _ H => H) (fun _ _ _ => eq_refl)) as (r1 & r2 & _ & _ & Hr & Hl').
    destruct (Hr (fun _ _ => eq_refl)) as [-> ->].
    pose proof (graph_space d T shots S 0 (d - 1 - j) Hd HT ltac:(lia) ltac:(lia) HS) as Hin.
    pose proof (Hl' u Hu) as Eu. rewrite Hl, eqb_refl in Eu by exact Hu. cbn [orb] in Eu.
    pose proof (Hl' v Hv) as Ev. rewrite Hl, eqb_refl, Bool.orb_true_r in Ev by exact Hv.
    pose proof (edge_shape_neq _ _ _ _ Hs) as Huv.
    symmetry in Eu, Ev. apply orb_true_iff in Eu as [Eu|Eu], Ev as [Ev|Ev]; apply eqb_true in Eu, Ev; subst u v; try congruence.
    (* the other orientation: the relation is symmetric *)
    destruct (syndrome_graph_spec d T shots Hd HT) as (S' & HS' & Hspec).
    rewrite HS in HS'. injection HS' as <-. apply Hspec in Hin as (j' & q' & p' & Hok' & H1 & H2 & H3 & H4 & H5).
    apply Hspec. exists j', q', p'. repeat split; auto.
  - rewrite nth_error_app2 in Hg by lia. rewrite Hlx in Hg.
    apply (Hgoal (j - d)).
    + exists g. rewrite Hb0. auto.
    + intros i. unfold fault_bits. f_equal. rewrite Hb0, Hb1. rewrite skipn_app, Hlx.
      rewrite (skipn_all2 (x_gates d false)) by lia. reflexivity.
Qed.
