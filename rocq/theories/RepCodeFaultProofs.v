(** Effect of faults on the measured bits. *)
From Verif Require Import Base BasisSem RepCodeModel RepCodeSpec RepCodeCircProofs.

(** * Superposition of faults *)
Definition unitq (q : nat) : bstate := {| qb := fun q' => q' =? q; cb := fun _ => false |}.

(** [s'] is [s] with the bits of [e] flipped. *)
Definition peq (s e s' : bstate) : Prop :=
  (forall q, qb s' q = xorb (qb s q) (qb e q)) /\ (forall i, cb s' i = xorb (cb s i) (cb e i)).

Definition nox1 (i : instr) : instr := match i with IX _ => IBarrier | _ => i end.
Definition noxb (b : list instr) : list instr := map nox1 b.

Lemma peq_step s e s' i : peq s e s' -> peq (exec_instr s i) (exec_instr e (nox1 i)) (exec_instr s' i).
Proof.
  intros [Hq Hc]. destruct i as [q|c t| |q c|q]; cbn [exec_instr nox1]; split; cbn [qb cb]; intros k; unfold upd; auto.
  - destruct (Nat.eqb_spec k q) as [->|?]; rewrite Hq; [|reflexivity]. destruct (qb s q), (qb e q); reflexivity.
  - destruct (Nat.eqb_spec k t) as [->|?]; rewrite !Hq; [|reflexivity].
    destruct (qb s c), (qb s t), (qb e c), (qb e t); reflexivity.
  - destruct (Nat.eqb_spec k c) as [->|?]; auto.
  - destruct (Nat.eqb_spec k q) as [->|?]; auto.
Qed.

Lemma peq_exec b : forall s e s', peq s e s' -> peq (exec b s) (exec (noxb b) e) (exec b s').
Proof.
  induction b as [|i b IH]; intros s e s' H; [exact H|]. cbn [noxb map]. rewrite !exec_cons. apply IH, peq_step, H.
Qed.

Lemma peq_flip s q : peq s (unitq q) (exec_instr s (IX q)).
Proof.
  split; intros k; cbn; unfold upd; [|destruct (cb s k); reflexivity].
  destruct (Nat.eqb_spec k q) as [->|?]; [destruct (qb s q); reflexivity | destruct (qb s k); reflexivity].
Qed.

Definition xsum (l : list bool) : bool := fold_right xorb false l.

Definition contrib (pos : nat) (body : list instr) (i : nat) (f : fault) : bool :=
  let '(j, q, p) := f in
  flips p && (pos <=? j) && (j <? pos + length body) && cb (exec (noxb (skipn (j - pos) body)) (unitq q)) i.

Lemma exec_flips fs pos body s i :
  cb (exec body (exec (flat_map (fun '(j, q, p) => if (j =? pos) && flips p then [IX q] else []) fs) s)) i
  = xorb (cb (exec body s) i)
         (xsum (map (fun f : fault => let '(j, q, p) := f in (j =? pos) && flips p && cb (exec (noxb body) (unitq q)) i) fs)).
Proof.
  revert s. induction fs as [|[[j q] p] fs IH]; intros s; cbn [flat_map map xsum fold_right].
  - cbn. rewrite xorb_false_r. reflexivity.
  - rewrite exec_app, IH. fold (xsum (map (fun f : fault => let '(j, q, p) := f in (j =? pos) && flips p && cb (exec (noxb body) (unitq q)) i) fs)).
    rewrite <- xorb_assoc. f_equal.
    destruct ((j =? pos) && flips p); cbn [andb].
    + destruct (peq_exec body s (unitq q) (exec [IX q] s) (peq_flip s q)) as [_ H]. apply H.
    + cbn. rewrite xorb_false_r. reflexivity.
Qed.

Lemma xsum_xor {A} (f g : A -> bool) l :
  xsum (map (fun a => xorb (f a) (g a)) l) = xorb (xsum (map f l)) (xsum (map g l)).
Proof.
  induction l as [|a l IH]; [reflexivity|]. unfold xsum in *. cbn [map fold_right]. rewrite IH.
  destruct (f a), (g a), (fold_right xorb false (map f l)), (fold_right xorb false (map g l)); reflexivity.
Qed.

Lemma xsum_ext {A} (f g : A -> bool) l : (forall a, In a l -> f a = g a) -> xsum (map f l) = xsum (map g l).
Proof. intros H. f_equal. apply map_ext_in, H. Qed.

Lemma superposition fs body : forall pos s i,
  cb (exec (with_faults fs pos body) s) i = xorb (cb (exec body s) i) (xsum (map (contrib pos body i) fs)).
Proof.
  induction body as [|g b IH]; intros pos s i.
  - cbn [with_faults]. rewrite (xsum_ext _ (fun _ => false)).
    + assert (E : xsum (map (fun _ : fault => false) fs) = false) by (clear; induction fs as [|f fs IHf]; [reflexivity | unfold xsum in *; cbn [map fold_right]; rewrite IHf; reflexivity]).
      rewrite E, xorb_false_r. reflexivity.
    + intros [[j q] p] _. cbn [contrib length]. destruct (Nat.leb_spec pos j), (Nat.ltb_spec j (pos + 0)); try lia;
        rewrite ?Bool.andb_false_r; reflexivity.
  - cbn [with_faults]. rewrite exec_app, exec_cons, IH. rewrite <- exec_cons, exec_flips, xorb_assoc. f_equal.
    rewrite <- xsum_xor. apply xsum_ext. intros [[j q] p] _. unfold contrib. cbn [length].
    destruct (Nat.eqb_spec j pos) as [->|Hn].
    + replace (S pos <=? pos) with false by (symmetry; apply Nat.leb_gt; lia).
      rewrite Bool.andb_false_r. cbn [andb]. rewrite xorb_false_r, Nat.leb_refl, Nat.sub_diag.
      replace (pos <? pos + S (length b)) with true by (symmetry; apply Nat.ltb_lt; lia).
      rewrite !Bool.andb_true_r. reflexivity.
    + cbn [andb]. rewrite xorb_false_l.
      destruct (Nat.leb_spec (S pos) j), (Nat.leb_spec pos j); try lia; rewrite ?Bool.andb_false_r; cbn [andb]; try reflexivity.
      replace (j <? S pos + length b) with (j <? pos + S (length b)) by (f_equal; lia).
      replace (j - pos) with (S (j - S pos)) by lia. reflexivity.
Qed.

(** * Effect of one fault *)

(** Syndrome of a pattern of flipped code qubits. *)
Definition syn (c : nat -> bool) (j : nat) : bool := xorb (c j) (c (j + 1)).

(** The measured bits flipped by a fault during round [t]: nothing before,
    [m] in round [t], the syndrome of the flipped code qubits [c] after. *)
Definition effect (d T : nat) (bits : nat -> bool) (t : nat) (m c : nat -> bool) : Prop :=
  (forall r j, r < T -> j < d - 1 ->
     bits (r * (d - 1) + j) = if r <? t then false else if r =? t then m j else syn c j) /\
  (forall j, j < d -> bits (T * (d - 1) + j) = c j).

Definition nothing (j : nat) : bool := false.
Definition only (q j : nat) : bool := j =? q.

(** The three kinds of single faults. *)
Inductive fault_kind (d T : nat) : nat -> (nat -> bool) -> (nat -> bool) -> Prop :=
| FK_none t : fault_kind d T t nothing nothing
| FK_link t j : t < T -> j < d - 1 -> fault_kind d T t (only j) nothing
| FK_code t q m : t <= T -> q < d -> (forall j, j < d - 1 -> m j = true -> syn (only q) j = true) ->
    (t = T -> forall j, j < d - 1 -> m j = syn (only q) j) ->
    fault_kind d T t m (only q).

Definition no_x (i : instr) : Prop := match i with IX _ => False | _ => True end.
Lemma noxb_id b : Forall no_x b -> noxb b = b.
Proof. induction 1 as [|i b Hi Hb IH]; [reflexivity|]. unfold noxb in *. cbn [map]. rewrite IH. destruct i; cbn in *; tauto. Qed.

Lemma noxb_app a b : noxb (a ++ b) = noxb a ++ noxb b.
Proof. apply map_app. Qed.

Lemma Forall_flat_map' {A B} (P : B -> Prop) (f : A -> list B) l : (forall a, In a l -> Forall P (f a)) -> Forall P (flat_map f l).
Proof. induction l as [|a l IH]; cbn; intros H; [constructor|]. apply Forall_app; split; auto. Qed.

Lemma round_no_x d t r : Forall no_x (round_gates d t r false).
Proof.
  rewrite round_shape. apply Forall_app; split.
  - apply Forall_forall. intros i Hi. apply in_map_iff in Hi as ([a b] & <- & _). exact I.
  - apply Forall_flat_map'. intros j _. destruct r; repeat constructor.
Qed.
Lemma readout_no_x d T js : Forall no_x (map (fun j => IMeasure (codeq d j) (T * (d - 1) + j)) js).
Proof. apply Forall_forall. intros i Hi. apply in_map_iff in Hi as (j & <- & _). exact I. Qed.
Lemma rounds_no_x d T t k : Forall no_x (rounds_from d T t k).
Proof. apply Forall_flat_map'. intros; apply round_no_x. Qed.
Lemma tail_no_x d T t : Forall no_x (tail_gates d T t).
Proof. apply Forall_app; split; [apply rounds_no_x | apply readout_no_x]. Qed.

Lemma app_cons_split {A} (X Y pre : list A) g post :
  X ++ Y = pre ++ g :: post ->
  (exists x2, X = pre ++ g :: x2 /\ post = x2 ++ Y) \/ (exists y1, pre = X ++ y1 /\ Y = y1 ++ g :: post).
Proof.
  revert pre. induction X as [|x X IH]; intros pre E.
  - right. exists pre. auto.
  - destruct pre as [|p pre]; cbn in E; injection E as -> E.
    + left. exists X. auto.
    + destruct (IH _ E) as [(x2 & -> & ->)|(y1 & -> & ->)]; [left; exists x2 | right; exists y1]; auto.
Qed.

(** State right after a faulty round: code part [c], syndrome [m]. *)
Definition after_round (d t : nat) (reset : bool) (s : bstate) (m c : nat -> bool) : Prop :=
  (forall j, j < d -> qb s (codeq d j) = c j) /\
  (reset = true -> forall j, j < d - 1 -> qb s j = false) /\
  (forall j, j < d - 1 -> cb s (t * (d - 1) + j) = m j) /\
  (forall i, i < t * (d - 1) -> cb s i = false).

Lemma seq_split_cons n pre j post :
  seq 0 n = pre ++ j :: post -> ~ In j post /\ j < n /\ (forall k, In k post -> k < n) /\ NoDup post.
Proof.
  intros E. pose proof (seq_NoDup n 0) as Hnd. rewrite E in Hnd.
  assert (Hin : forall k, In k (pre ++ j :: post) -> k < n) by (intros k Hk; rewrite <- E in Hk; apply in_seq in Hk; lia).
  pose proof (NoDup_remove _ _ _ Hnd) as [Hnd' Hni]. rewrite in_app_iff in Hni.
  repeat split; try tauto.
  - apply Hin. apply in_elt.
  - intros k Hk. apply Hin. apply in_or_app; right; right; exact Hk.
  - clear -Hnd'. induction pre as [|x pre IH]; [exact Hnd'|]. inversion Hnd'; auto.
Qed.

Lemma codeq_inj d a b : codeq d a = codeq d b -> a = b.
Proof. unfold codeq. lia. Qed.

Lemma codeq_ge d a : d - 1 <= codeq d a.
Proof. unfold codeq. lia. Qed.

Lemma qb_unit_code d q j : qb (unitq (codeq d q)) (codeq d j) = only q j.
Proof.
  cbn. unfold only. destruct (Nat.eqb_spec (codeq d j) (codeq d q)), (Nat.eqb_spec j q); try reflexivity.
  - apply codeq_inj in e; congruence.
  - subst; congruence.
Qed.

(** Executing the rest of the controlled-NOTs, then the measurements. *)
Lemma cx_suffix d t reset l s :
  (forall a b, In (a, b) l -> d - 1 <= a /\ b < d - 1) -> (forall i, cb s i = false) ->
  after_round d t reset (exec (map icx l ++ meas_seg d t reset (seq 0 (d - 1))) s)
    (fun j => xorb (qb s j) (par l j (qb s))) (fun j => qb s (codeq d j)).
Proof.
  intros Hl Hcb. rewrite exec_app.
  pose proof (exec_cx d l s Hl) as (C1 & C2 & C3). cbn zeta in *.
  change (fun '(a, b) => ICX a b) with icx in *. set (s1 := exec (map icx l) s) in *.
  pose proof (exec_meas d t reset (seq 0 (d - 1)) s1 (seq_NoDup _ _) (fun j Hj => proj2 (proj1 (in_seq _ _ _) Hj))) as (M1 & M2 & M3).
  cbn zeta in *. repeat split.
  - intros j Hj. rewrite M1, existsb_seq. destruct (Nat.ltb_spec (codeq d j) (d - 1)); [unfold codeq in *; lia|].
    rewrite Bool.andb_false_r. apply C1, codeq_ge.
  - intros -> j Hj. rewrite M1, existsb_seq. destruct (Nat.ltb_spec j (d - 1)); [reflexivity | lia].
  - intros j Hj. rewrite M2 by exact Hj. rewrite existsb_seq. destruct (Nat.ltb_spec j (d - 1)); [|lia].
    rewrite C2 by exact Hj. reflexivity.
  - intros i Hi. rewrite M3, C3 by exact Hi. apply Hcb.
Qed.

Lemma par_only_sub d pre l q j :
  pre ++ l = cxs d -> j < d - 1 -> par l j (qb (unitq (codeq d q))) = true -> syn (only q) j = true.
Proof.
  intros El Hj Hp.
  assert (exists a, In (a, j) l /\ a = codeq d q) as (a & Ha & ->).
  { clear El. unfold par in Hp. induction l as [|[a b] l IH]; [discriminate|]. cbn [map fold_right] in Hp.
    destruct (Nat.eqb_spec b j) as [->|?]; cbn [andb] in Hp.
    - cbn in Hp. destruct (Nat.eqb_spec a (codeq d q)) as [->|?].
      + exists (codeq d q). split; [left|]; reflexivity.
      + rewrite xorb_false_l in Hp. destruct (IH Hp) as (x & Hx & E). exists x; split; [right|]; assumption.
    - rewrite xorb_false_l in Hp. destruct (IH Hp) as (x & Hx & E). exists x; split; [right|]; assumption. }
  assert (Hin : In (codeq d q, j) (cxs d)) by (rewrite <- El; apply in_or_app; right; exact Ha).
  apply cxs_In in Hin as [_ [E|E]]; apply codeq_inj in E; subst q; unfold syn, only.
  - rewrite Nat.eqb_refl. destruct (Nat.eqb_spec (j + 1) j); [lia | reflexivity].
  - rewrite Nat.eqb_refl. destruct (Nat.eqb_spec j (j + 1)); [lia | reflexivity].
Qed.

Lemma par_zero l j f : (forall a b, In (a, b) l -> f a = false) -> par l j f = false.
Proof.
  intros H. unfold par. induction l as [|[a b] l IH]; [reflexivity|]. cbn [map fold_right].
  rewrite (H a b) by (left; reflexivity). rewrite Bool.andb_false_r, xorb_false_l.
  apply IH. intros a' b' Hi. apply (H a' b'). right; exact Hi.
Qed.

Lemma after_round_ext d t r s m m' c c' :
  after_round d t r s m c -> (forall j, j < d - 1 -> m j = m' j) -> (forall j, j < d -> c j = c' j) ->
  after_round d t r s m' c'.
Proof.
  intros (A1 & A2 & A3 & A4) Hm Hc. repeat split; auto.
  - intros j Hj. rewrite A1, Hc by exact Hj. reflexivity.
  - intros j Hj. rewrite A3, Hm by exact Hj. reflexivity.
Qed.

(** A fault inside round [t]. *)
Lemma round_fault d t T reset pre g post q :
  t < T -> round_gates d t reset false = pre ++ g :: post -> In q (instr_qubits g) ->
  exists m c, fault_kind d T t m c /\ after_round d t reset (exec (g :: post) (unitq q)) m c.
Proof.
  intros HT E Hq. rewrite round_shape in E. apply app_cons_split in E as [(x2 & E & ->)|(y1 & -> & E)].
  - (* among the controlled-NOTs *)
    assert (exists p1 a b p2, cxs d = p1 ++ (a, b) :: p2 /\ g = ICX a b /\ x2 = map icx p2) as (p1 & a & b & p2 & Ec & -> & ->).
    { clear -E. apply map_eq_app in E as (l1 & l2 & -> & _ & E). destruct l2 as [|[a b] l2]; [discriminate|].
      cbn [map icx] in E. injection E as E1 E2. exists l1, a, b, l2. auto. }
    change (ICX a b :: map icx p2 ++ meas_seg d t reset (seq 0 (d - 1))) with (map icx ((a, b) :: p2) ++ meas_seg d t reset (seq 0 (d - 1))).
    assert (Hl : forall a' b', In (a', b') ((a, b) :: p2) -> d - 1 <= a' /\ b' < d - 1).
    { intros a' b' Hi. apply cxs_bounds. rewrite Ec. apply in_or_app; right; exact Hi. }
    destruct (Hl a b (or_introl eq_refl)) as [Ha Hb].
    pose proof (cx_suffix d t reset ((a, b) :: p2) (unitq q) Hl (fun _ => eq_refl)) as HA.
    cbn [instr_qubits] in Hq. destruct Hq as [<-|[<-|[]]].
    + (* on the control *)
      assert (exists k, k < d /\ a = codeq d k) as (k & Hk & ->).
      { assert (Hin : In (a, b) (cxs d)) by (rewrite Ec; apply in_elt). apply cxs_In in Hin as [Hb' [-> | ->]].
        - exists b. split; [lia | reflexivity].
        - exists (b + 1). split; [lia | reflexivity]. }
      eexists _, (only k). split; [|eapply after_round_ext; [exact HA | |]].
      * apply FK_code; [lia | exact Hk | | intros; lia].
        intros j Hj Hm. instantiate (1 := fun j => par ((codeq d k, b) :: p2) j (qb (unitq (codeq d k)))) in Hm. cbn beta in Hm.
        eapply par_only_sub; [symmetry; exact Ec | exact Hj | exact Hm].
      * intros j Hj. cbn beta. replace (qb (unitq (codeq d k)) j) with false; [apply xorb_false_l|].
        symmetry. cbn. apply Nat.eqb_neq. unfold codeq. lia.
      * intros j Hj. apply qb_unit_code.
    + (* on the target *)
      exists (only b), nothing. split; [apply FK_link; assumption|]. eapply after_round_ext; [exact HA| |].
      * intros j Hj. cbn beta. rewrite par_zero.
        -- rewrite xorb_false_r. reflexivity.
        -- intros a' b' Hi. cbn. apply Nat.eqb_neq. apply Hl in Hi. lia.
      * intros j Hj. cbn. apply Nat.eqb_neq. unfold codeq. lia.
  - (* among the measurements *)
    unfold meas_seg in E.
    assert (exists p1 j p2, seq 0 (d - 1) = p1 ++ j :: p2 /\
       ((g = IMeasure (linkq j) (t * (d - 1) + j) /\ g :: post = meas_seg d t reset (j :: p2)) \/
        (g = IReset (linkq j) /\ g :: post = IReset (linkq j) :: meas_seg d t reset p2))) as (p1 & j & p2 & Es & Hcase).
    { clear -E. revert y1 E. generalize (seq 0 (d - 1)) as l. induction l as [|j l IH]; intros y1 E; [destruct y1; discriminate|].
      cbn [flat_map] in E. destruct (app_cons_split _ _ _ _ _ E) as [(x2 & Ex & Ep)|(y2 & -> & Ey)].
      - exists [], j, l. split; [reflexivity|]. destruct y1 as [|i y1]; cbn in Ex.
        + injection Ex as Eg Ex. left. split; [congruence|]. cbn [meas_seg flat_map app]. rewrite Ep, <- Ex, <- Eg. reflexivity.
        + injection Ex as _ Ex. destruct reset; [|destruct y1; discriminate].
          destruct y1 as [|i' y1]; cbn in Ex; [|injection Ex as _ Ex; destruct y1; discriminate].
          injection Ex as <- <-. right. split; [reflexivity|]. cbn in Ep. rewrite Ep. reflexivity.
      - destruct (IH _ Ey) as (p1 & j' & p2 & -> & Hc). exists (j :: p1), j', p2. auto. }
    destruct (seq_split_cons _ _ _ _ Es) as (Hni & Hjlt & Hlt2 & Hnd2).
    assert (Hndj : NoDup (j :: p2)) by (constructor; assumption).
    assert (Hltj : forall k, In k (j :: p2) -> k < d - 1) by (intros k [<-|Hk]; auto).
    destruct Hcase as [[-> Ep]|[-> Ep]]; rewrite Ep; cbn in Hq; destruct Hq as [<-|[]]; unfold linkq.
    + exists (only j), nothing. split; [apply FK_link; assumption|].
      pose proof (exec_meas d t reset (j :: p2) (unitq j) Hndj Hltj) as (M1 & M2 & M3). cbn zeta in *. repeat split.
      * intros k Hk. rewrite M1.
        replace (existsb (Nat.eqb (codeq d k)) (j :: p2)) with false.
        2:{ symmetry. rewrite <- Bool.not_true_iff_false, existsb_exists. intros (x & Hx & Ex). apply Nat.eqb_eq in Ex.
            apply Hltj in Hx. unfold codeq in Ex. lia. }
        rewrite Bool.andb_false_r. cbn. apply Nat.eqb_neq. unfold codeq. lia.
      * intros -> k Hk. rewrite M1. cbn [andb]. cbn [existsb qb unitq]. destruct (Nat.eqb_spec k j); [reflexivity|].
        cbn [orb]. destruct (existsb (Nat.eqb k) p2); reflexivity.
      * intros k Hk. rewrite M2 by exact Hk. cbn [existsb qb cb unitq]. unfold only.
        destruct (Nat.eqb_spec k j); [reflexivity|]. cbn [orb]. destruct (existsb (Nat.eqb k) p2); reflexivity.
      * intros i Hi. rewrite M3 by exact Hi. reflexivity.
    + exists nothing, nothing. split; [apply FK_none|]. rewrite exec_cons.
      set (s1 := exec_instr (unitq j) (IReset j)).
      assert (Hz : forall k, qb s1 k = false).
      { intros k. cbn. unfold upd. destruct (k =? j); reflexivity. }
      pose proof (exec_meas d t reset p2 s1 Hnd2 Hlt2) as (M1 & M2 & M3). cbn zeta in *. repeat split.
      * intros k Hk. rewrite M1, Hz. destruct (reset && existsb (Nat.eqb (codeq d k)) p2); reflexivity.
      * intros _ k Hk. rewrite M1, Hz. destruct (reset && existsb (Nat.eqb k) p2); reflexivity.
      * intros k Hk. rewrite M2, Hz by exact Hk. destruct (existsb (Nat.eqb k) p2); reflexivity.
      * intros i Hi. rewrite M3 by exact Hi. reflexivity.
Qed.

(** Continuing after the faulty round. *)
Lemma after_round_effect d T t s m c :
  t < T -> after_round d t (t <? T - 1) s m c ->
  effect d T (cb (exec (rounds_from d T (S t) (T - S t) ++ readout_gates d T) s)) t m c.
Proof.
  intros Ht (A1 & A2 & A3 & A4).
  destruct (Nat.ltb_spec t (T - 1)).
  - pose proof (exec_tail d T (T - S t) (S t) s eq_refl ltac:(lia) (A2 eq_refl)) as (E1 & E2 & E3). cbn zeta in *.
    unfold tail_gates in *. split.
    + intros r j Hr Hj. destruct (Nat.ltb_spec r t); [|destruct (Nat.eqb_spec r t) as [->|Hn]].
      * rewrite E3 by (cbn; nia). apply A4. nia.
      * rewrite E3 by (cbn; nia). apply A3; exact Hj.
      * rewrite E1 by lia. unfold syn. rewrite !A1 by lia. reflexivity.
    + intros j Hj. rewrite E2, A1 by exact Hj. reflexivity.
  - replace (T - S t) with 0 by lia. cbn [rounds_from seq flat_map app]. unfold readout_gates.
    pose proof (exec_readout d T (seq 0 d) s (seq_NoDup _ _) (fun j Hj => proj2 (proj1 (in_seq _ _ _) Hj))) as (Q1 & Q2).
    cbn zeta in *. split.
    + intros r j Hr Hj. rewrite Q2 by nia. destruct (Nat.ltb_spec r t); [apply A4; nia|].
      destruct (Nat.eqb_spec r t) as [->|Hn]; [apply A3; exact Hj | lia].
    + intros j Hj. rewrite Q1 by exact Hj. rewrite existsb_seq. destruct (Nat.ltb_spec j d); [apply A1; exact Hj | lia].
Qed.

Lemma rounds_app d T t k k' : rounds_from d T t (k + k') = rounds_from d T t k ++ rounds_from d T (t + k) k'.
Proof. unfold rounds_from. rewrite seq_app, flat_map_app. reflexivity. Qed.

Lemma effect_ext d T bits bits' t m c : effect d T bits t m c -> (forall i, bits' i = bits i) -> effect d T bits' t m c.
Proof. intros [E1 E2] H. split; intros; rewrite H; auto. Qed.

(** A fault in the rounds and readout. *)
Lemma tail_fault d T pre g post q :
  1 <= T -> tail_gates d T 0 = pre ++ g :: post -> In q (instr_qubits g) ->
  exists t m c, fault_kind d T t m c /\ effect d T (cb (exec (g :: post) (unitq q))) t m c.
Proof.
  intros HT E Hq. unfold tail_gates in E. rewrite Nat.sub_0_r in E.
  apply app_cons_split in E as [(x2 & E & ->)|(y1 & -> & E)].
  - assert (exists t p1 x3, t < T /\ round_gates d t (t <? T - 1) false = p1 ++ g :: x3 /\ x2 = x3 ++ rounds_from d T (S t) (T - S t))
      as (t & p1 & x3 & Ht & Er & ->).
    { clear -E. assert (H : forall k t pre x2, k + t = T -> rounds_from d T t k = pre ++ g :: x2 ->
        exists t p1 x3, t < T /\ round_gates d t (t <? T - 1) false = p1 ++ g :: x3 /\ x2 = x3 ++ rounds_from d T (S t) (T - S t)).
      { induction k as [|k IH]; intros t pre' x' Hk E'; [destruct pre'; discriminate|].
        change (rounds_from d T t (S k)) with (round_gates d t (t <? T - 1) false ++ rounds_from d T (S t) k) in E'.
        apply app_cons_split in E' as [(x3 & Ex & ->)|(y1 & -> & Ey)].
        - exists t, pre', x3. split; [lia|]. split; [exact Ex|]. f_equal. f_equal. lia.
        - eapply IH; [|exact Ey]. lia. }
      eapply H; [|exact E]. lia. }
    destruct (round_fault d t T _ _ _ _ _ Ht Er Hq) as (m & c & Hk & Ha).
    exists t, m, c. split; [exact Hk|].
    change (g :: (x3 ++ rounds_from d T (S t) (T - S t)) ++ readout_gates d T)
      with ((g :: x3 ++ rounds_from d T (S t) (T - S t)) ++ readout_gates d T).
    rewrite app_comm_cons, <- app_assoc, exec_app. apply after_round_effect; assumption.
  - unfold readout_gates in E.
    apply map_eq_app in E as (l1 & l2 & Es & _ & E). destruct l2 as [|k l2]; [discriminate|]. cbn [map] in E. injection E as <- <-.
    destruct (seq_split_cons _ _ _ _ Es) as (Hni & Hklt & Hlt2 & Hnd2).
    cbn in Hq. destruct Hq as [<-|[]]. exists T, (syn (only k)), (only k). split; [apply FK_code; auto|].
    change (IMeasure (codeq d k) (T * (d - 1) + k) :: map (fun j => IMeasure (codeq d j) (T * (d - 1) + j)) l2)
      with (map (fun j => IMeasure (codeq d j) (T * (d - 1) + j)) (k :: l2)).
    pose proof (exec_readout d T (k :: l2) (unitq (codeq d k)) ltac:(constructor; assumption)
       ltac:(intros j [<-|Hj]; auto)) as (Q1 & Q2). cbn zeta in *. split.
    + intros r j Hr Hj. rewrite Q2 by nia. destruct (Nat.ltb_spec r T); [reflexivity | lia].
    + intros j Hj. rewrite Q1 by exact Hj. cbn [existsb]. rewrite qb_unit_code. unfold only.
      destruct (Nat.eqb_spec j k); cbn [orb]; [reflexivity|]. destruct (existsb (Nat.eqb j) l2); reflexivity.
Qed.

Lemma exec_barriers n s : exec (repeat IBarrier n) s = s.
Proof. induction n; [reflexivity|]. cbn [repeat]. rewrite exec_cons. exact IHn. Qed.

(** Starting a tail with one flipped code qubit. *)
Lemma tail_start_effect d T t q : t <= T -> q < d ->
  effect d T (cb (exec (tail_gates d T t) (unitq (codeq d q)))) t (syn (only q)) (only q).
Proof.
  intros Ht Hq.
  pose proof (exec_tail d T (T - t) t (unitq (codeq d q)) eq_refl Ht) as H. cbn zeta in H.
  destruct H as (E1 & E2 & E3).
  { intros j Hj. cbn. apply Nat.eqb_neq. unfold codeq. lia. }
  split.
  - intros r j Hr Hj. destruct (Nat.ltb_spec r t).
    + rewrite E3 by nia. reflexivity.
    + rewrite E1 by lia. rewrite !qb_unit_code. destruct (r =? t); reflexivity.
  - intros j Hj. rewrite E2, qb_unit_code by exact Hj. reflexivity.
Qed.

(** Any single fault in the circuit for logical value [b]. *)
Lemma fault_effect d T b j q p :
  1 <= T -> fault_ok (rc_circ (repetition_code d T) b) (j, q, p) ->
  exists t m c, fault_kind d T t m c /\
    effect d T (cb (exec (noxb (skipn j (rc_circ (repetition_code d T) b))) (unitq q))) t m c.
Proof.
  intros HT (g & Hg & Hq). destruct (code_shape d T HT) as (_ & _ & _ & Hb). rewrite Hb in *. clear Hb.
  apply nth_error_split in Hg as (pre & post & E & <-). rewrite E, skipn_app, skipn_all, Nat.sub_diag. cbn [skipn app].
  apply app_cons_split in E as [(x2 & E & ->)|(y1 & -> & E)].
  - destruct b; cbn [prep] in E; [|destruct pre; discriminate].
    unfold x_gates in E. rewrite app_nil_r in E. apply map_eq_app in E as (l1 & l2 & Es & _ & E).
    destruct l2 as [|k l2]; [discriminate|]. cbn [map] in E. injection E as <- <-. cbn in Hq. destruct Hq as [<-|[]].
    destruct (seq_split_cons _ _ _ _ Es) as (Hni & Hklt & Hlt2 & Hnd2).
    exists 0, (syn (only k)), (only k). split; [apply FK_code; auto; lia|].
    rewrite app_comm_cons, noxb_app, exec_app. rewrite (noxb_id (tail_gates d T 0)) by apply tail_no_x.
    replace (noxb (IX (codeq d k) :: map (fun j => IX (codeq d j)) l2)) with (repeat IBarrier (S (length l2))).
    2:{ cbn. f_equal. unfold noxb. rewrite map_map. cbn. clear. induction l2; cbn; congruence. }
    rewrite exec_barriers. apply tail_start_effect; [lia | exact Hklt].
  - rewrite noxb_id; [eapply tail_fault; eassumption|].
    pose proof (tail_no_x d T 0) as Hn. rewrite E in Hn. apply Forall_app in Hn as [_ Hn]. exact Hn.
Qed.

(** * Faults realising every elementary effect in the logical-0 circuit *)
Lemma circ0_split d T t : 1 <= T -> t <= T ->
  rc_circ (repetition_code d T) false = rounds_from d T 0 t ++ tail_gates d T t.
Proof.
  intros HT Ht. destruct (code_shape d T HT) as (_ & _ & _ & Hb). rewrite Hb. cbn [prep app]. unfold tail_gates.
  rewrite Nat.sub_0_r. replace T with (t + (T - t)) at 2 by lia. rewrite rounds_app, <- app_assoc. reflexivity.
Qed.

Lemma skipn_exact {A} (X Y : list A) : skipn (length X) (X ++ Y) = Y.
Proof. rewrite skipn_app, skipn_all, Nat.sub_diag. reflexivity. Qed.

Lemma realise_wrap body pre g post q :
  body = pre ++ g :: post -> In q (instr_qubits g) -> Forall no_x (g :: post) ->
  fault_ok body (length pre, q, PX) /\ noxb (skipn (length pre) body) = g :: post.
Proof.
  intros -> Hq Hx. split.
  - exists g. split; [|exact Hq]. rewrite nth_error_app2, Nat.sub_diag by lia. reflexivity.
  - rewrite skipn_exact. apply noxb_id, Hx.
Qed.

Lemma first_split {A} (P : A -> bool) l a : In a l -> P a = true ->
  exists l1 x l2, l = l1 ++ x :: l2 /\ P x = true /\ forall y, In y l1 -> P y = false.
Proof.
  induction l as [|y l IH]; [intros []|]. intros Hin Ha. destruct (P y) eqn:Ey.
  - exists [], y, l. repeat split; auto. intros ? [].
  - destruct Hin as [->|Hin]; [congruence|]. destruct (IH Hin Ha) as (l1 & x & l2 & -> & Hx & Hl).
    exists (y :: l1), x, l2. repeat split; auto. intros z [<-|Hz]; auto.
Qed.

Lemma tail_S d T t : t < T ->
  tail_gates d T t = round_gates d t (t <? T - 1) false ++ rounds_from d T (S t) (T - S t) ++ readout_gates d T.
Proof.
  intros Ht. unfold tail_gates. replace (T - t) with (S (T - S t)) by lia.
  change (rounds_from d T t (S (T - S t))) with (round_gates d t (t <? T - 1) false ++ rounds_from d T (S t) (T - S t)).
  rewrite <- app_assoc. reflexivity.
Qed.

Lemma realise_code d T t q : 1 <= T -> t <= T -> q < d -> 2 <= d ->
  exists j, fault_ok (rc_circ (repetition_code d T) false) (j, codeq d q, PX) /\
    effect d T (cb (exec (noxb (skipn j (rc_circ (repetition_code d T) false))) (unitq (codeq d q)))) t (syn (only q)) (only q).
Proof.
  intros HT Ht Hq Hd. pose proof (circ0_split d T t HT Ht) as Hb.
  pose proof (tail_no_x d T t) as Hx.
  destruct (Nat.eq_dec t T) as [->|Hn].
  - (* before its readout *)
    assert (Et : tail_gates d T T = readout_gates d T) by (unfold tail_gates; rewrite Nat.sub_diag; reflexivity).
    rewrite Et in *. unfold readout_gates in *.
    assert (Es : seq 0 d = seq 0 q ++ q :: seq (S q) (d - S q)).
    { replace d with (q + S (d - S q)) at 1 by lia. rewrite seq_app. reflexivity. }
    assert (Hni : ~ In q (seq (S q) (d - S q))) by (rewrite in_seq; lia).
    rewrite Es, map_app in Hb, Hx. cbn [map] in Hb, Hx. rewrite app_assoc in Hb. apply Forall_app in Hx as [_ Hx].
    destruct (realise_wrap _ _ _ _ (codeq d q) Hb (or_introl eq_refl) Hx) as [Hok Hsk].
    eexists. split; [exact Hok|]. rewrite Hsk.
    change (_ :: map _ ?l) with (map (fun j => IMeasure (codeq d j) (T * (d - 1) + j)) (q :: l)).
    pose proof (exec_readout d T (q :: seq (S q) (d - S q)) (unitq (codeq d q)) ltac:(constructor; [exact Hni | apply seq_NoDup])
       ltac:(intros j [<-|Hj]; [exact Hq | apply in_seq in Hj; lia])) as (Q1 & Q2). cbn zeta in *. split.
    + intros r j Hr Hj. rewrite Q2 by nia. destruct (Nat.ltb_spec r T); [reflexivity | lia].
    + intros j Hj. rewrite Q1 by exact Hj. cbn [existsb]. rewrite qb_unit_code. unfold only.
      destruct (Nat.eqb_spec j q); cbn [orb]; [reflexivity|]. destruct (existsb _ _); reflexivity.
  - assert (Hlt : t < T) by lia. rewrite (tail_S d T t Hlt) in *. rewrite round_shape in *.
    assert (Hin : In (codeq d q, if q <? d - 1 then q else q - 1) (cxs d)).
    { apply cxs_In. destruct (Nat.ltb_spec q (d - 1)); [split; [lia | left; reflexivity]|].
      split; [lia | right; f_equal; lia]. }
    destruct (first_split (fun p => fst p =? codeq d q) (cxs d) _ Hin (Nat.eqb_refl _)) as (p1 & [a b] & p2 & Ec & Ha & Hp1).
    cbn [fst] in Ha. apply Nat.eqb_eq in Ha. subst a.
    rewrite Ec, map_app in Hb, Hx. cbn [map icx] in Hb, Hx. rewrite <- !app_assoc in Hb, Hx. cbn [app] in Hb, Hx.
    rewrite app_assoc in Hb. apply Forall_app in Hx as [_ Hx].
    destruct (realise_wrap _ _ _ _ (codeq d q) Hb (or_introl eq_refl) Hx) as [Hok Hsk].
    eexists. split; [exact Hok|]. rewrite Hsk.
    rewrite app_comm_cons. change (ICX (codeq d q) b :: map icx p2) with (map icx ((codeq d q, b) :: p2)).
    rewrite !app_assoc. rewrite <- (app_assoc (_ ++ _)). rewrite exec_app.
    apply after_round_effect; [exact Hlt|].
    assert (Hl : forall a' b', In (a', b') ((codeq d q, b) :: p2) -> d - 1 <= a' /\ b' < d - 1).
    { intros a' b' Hi. apply cxs_bounds. rewrite Ec. apply in_or_app; right; exact Hi. }
    eapply after_round_ext; [apply (cx_suffix d t (t <? T - 1) _ (unitq (codeq d q)) Hl (fun _ => eq_refl))| |].
    + intros j Hj. cbn beta. replace (qb (unitq (codeq d q)) j) with false.
      2:{ symmetry. cbn. apply Nat.eqb_neq. unfold codeq. lia. }
      rewrite xorb_false_l.
      assert (Ep : par (cxs d) j (qb (unitq (codeq d q))) = xorb (par p1 j (qb (unitq (codeq d q)))) (par ((codeq d q, b) :: p2) j (qb (unitq (codeq d q))))).
      { rewrite Ec. unfold par. rewrite map_app, fold_xor_app. reflexivity. }
      rewrite (par_zero p1), xorb_false_l in Ep.
      * rewrite <- Ep, par_full by exact Hj. rewrite !qb_unit_code. reflexivity.
      * intros a' b' Hi. specialize (Hp1 _ Hi). cbn [fst] in Hp1. exact Hp1.
    + intros j Hj. apply qb_unit_code.
Qed.

Lemma realise_link d T t k : 1 <= T -> t < T -> k < d - 1 ->
  exists j, fault_ok (rc_circ (repetition_code d T) false) (j, linkq k, PX) /\
    effect d T (cb (exec (noxb (skipn j (rc_circ (repetition_code d T) false))) (unitq (linkq k)))) t (only k) nothing.
Proof.
  intros HT Ht Hk. pose proof (circ0_split d T t HT ltac:(lia)) as Hb.
  pose proof (tail_no_x d T t) as Hx. rewrite (tail_S d T t Ht) in *. rewrite round_shape in *.
  assert (Hin : In (codeq d k, k) (cxs d)) by (apply cxs_In; auto).
  apply in_split in Hin as (p1 & p2 & Ec).
  rewrite Ec, map_app in Hb, Hx. cbn [map icx] in Hb, Hx. rewrite <- !app_assoc in Hb, Hx. cbn [app] in Hb, Hx.
  rewrite app_assoc in Hb. apply Forall_app in Hx as [_ Hx].
  destruct (realise_wrap _ _ _ _ (linkq k) Hb (or_intror (or_introl eq_refl)) Hx) as [Hok Hsk].
  eexists. split; [exact Hok|]. rewrite Hsk.
  rewrite app_comm_cons. change (ICX (codeq d k) k :: map icx p2) with (map icx ((codeq d k, k) :: p2)).
  rewrite !app_assoc. rewrite <- (app_assoc (_ ++ _)). rewrite exec_app.
  apply after_round_effect; [exact Ht|].
  assert (Hl : forall a' b', In (a', b') ((codeq d k, k) :: p2) -> d - 1 <= a' /\ b' < d - 1).
  { intros a' b' Hi. apply cxs_bounds. rewrite Ec. apply in_or_app; right; exact Hi. }
  eapply after_round_ext; [apply (cx_suffix d t (t <? T - 1) _ (unitq (linkq k)) Hl (fun _ => eq_refl))| |].
  - intros j Hj. cbn beta. rewrite par_zero; [rewrite xorb_false_r; reflexivity|].
    intros a' b' Hi. cbn. apply Nat.eqb_neq. apply Hl in Hi. unfold linkq. lia.
  - intros j Hj. cbn. apply Nat.eqb_neq. unfold codeq, linkq. lia.
Qed.

(** The noiseless run. *)
Lemma noiseless_bits d T b : 1 <= T -> 
  effect d T (cb (exec (rc_circ (repetition_code d T) b) all_zero)) 0 nothing (fun _ => b).
Proof.
  intros HT. destruct (code_shape d T HT) as (_ & _ & _ & Hb). rewrite Hb, exec_app.
  assert (Hp : let s := exec (prep d b) all_zero in (forall j, j < d - 1 -> qb s j = false) /\ (forall j, j < d -> qb s (codeq d j) = b)).
  { cbn zeta. destruct b; cbn [prep]; [|split; intros; reflexivity].
    unfold x_gates. rewrite app_nil_r.
    assert (H : forall js s, NoDup js -> let s' := exec (map (fun j => IX (codeq d j)) js) s in
       (forall j, j < d - 1 -> qb s' j = qb s j) /\
       (forall j, qb s' (codeq d j) = if existsb (Nat.eqb j) js then negb (qb s (codeq d j)) else qb s (codeq d j))).
    { induction js as [|a js IH]; intros s Hnd; cbn zeta; [split; reflexivity|]. cbn [map]. rewrite exec_cons.
      inversion Hnd as [|? ? Hni Hnd']; subst.
      destruct (IH (exec_instr s (IX (codeq d a))) Hnd') as [I1 I2]. split.
      - intros j Hj. rewrite I1 by exact Hj. cbn. apply upd_other. unfold codeq. lia.
      - intros j. rewrite I2. cbn [existsb exec_instr qb]. unfold upd.
        destruct (Nat.eqb_spec (codeq d j) (codeq d a)) as [E|E], (Nat.eqb_spec j a) as [E'|E']; cbn [orb]; try reflexivity.
        + subst j. replace (existsb (Nat.eqb a) js) with false; [reflexivity|].
          symmetry. rewrite <- Bool.not_true_iff_false, existsb_exists. intros (x & Hx & Ex).
          apply Nat.eqb_eq in Ex; subst; auto.
        + apply codeq_inj in E; contradiction.
        + subst; contradiction. }
    destruct (H (seq 0 d) all_zero (seq_NoDup _ _)) as [H1 H2]. split.
    - intros j Hj. rewrite H1 by exact Hj. reflexivity.
    - intros j Hj. rewrite H2, existsb_seq. destruct (Nat.ltb_spec j d); [reflexivity | lia]. }
  destruct Hp as [Hl Hc]. set (s := exec (prep d b) all_zero) in *.
  pose proof (exec_tail d T (T - 0) 0 s eq_refl ltac:(lia) Hl) as (E1 & E2 & E3). cbn zeta in *. split.
  - intros r j Hr Hj. rewrite E1 by lia. rewrite !Hc by lia. unfold syn, nothing. rewrite xorb_nilpotent.
    destruct (r <? 0), (r =? 0); reflexivity.
  - intros j Hj. rewrite E2, Hc by exact Hj. reflexivity.
Qed.
