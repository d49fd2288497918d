(** Square matrices over a field: more vectors than dimensions are dependent, and
    a left inverse is a right inverse. *)
From Verif Require Import LinAlg Base.
Local Open Scope list_scope.
Local Open Scope nat_scope.

Section Inv.
Context {F : Type} {HF : Fld F}.
Add Field FldFieldLI : (fth (F:=F)).
Local Open Scope fld_scope.

Definition lincomb (cs : list F) (us : list (nat -> F)) (i : nat) : F := fsum (map (fun p => fst p * snd p i) (combine cs us)).
Lemma lincomb_cons c cs u us i : lincomb (c :: cs) (u :: us) i = c * u i + lincomb cs us i. Proof. reflexivity. Qed.
Lemma find_pivot (us : list (nat -> F)) n : (exists us1 u us2, us = us1 ++ u :: us2 /\ u n <> 0) \/ Forall (fun u => u n = 0) us.
Proof.
  induction us as [|u us IH]; [right; constructor|]. destruct (feqb_ok (u n) 0) as [E|N].
  - destruct IH as [(us1 & v & us2 & -> & Hv)|H]; [left; exists (u :: us1), v, us2; auto|right; constructor; assumption].
  - left. exists [], u, us. auto.
Qed.
Lemma lincomb_zero_at cs us n : Forall (fun u => u n = 0) us -> lincomb cs us n = 0.
Proof. intros H. revert cs. induction H as [|u us E _ IH]; intros [|c cs]; try reflexivity. rewrite lincomb_cons, E, IH. ring. Qed.
Lemma lincomb_app cs1 us1 cs2 us2 i : length cs1 = length us1 -> lincomb (cs1 ++ cs2) (us1 ++ us2) i = lincomb cs1 us1 i + lincomb cs2 us2 i.
Proof.
  revert us1. induction cs1 as [|c cs1 IH]; intros [|u us1] H; try discriminate; [cbn [app]; change (lincomb [] [] i) with (0 : F); ring|].
  cbn [app]. rewrite !lincomb_cons, IH by (cbn in H; lia). ring.
Qed.
Lemma lincomb_sub k w cs (us : list (nat -> F)) i : length cs = length us ->
  lincomb cs (map (fun u j => u j - k u * w j) us) i = lincomb cs us i - fsum (map (fun p => fst p * k (snd p)) (combine cs us)) * w i.
Proof.
  revert us. induction cs as [|c cs IH]; intros [|u us] H; try discriminate; [cbn [map combine]; rewrite fsum_nil; change (lincomb [] [] i) with (0 : F); ring|].
  cbn [map combine fst snd]. rewrite !lincomb_cons, IH by (cbn in H; lia). rewrite fsum_cons. cbn [fst snd]. ring.
Qed.

(** n + 1 vectors of dimension n are dependent. *)
Lemma dependent n : forall us : list (nat -> F), length us = S n ->
  exists cs, length cs = S n /\ (exists c, In c cs /\ c <> 0) /\ forall i, (i < n)%nat -> lincomb cs us i = 0.
Proof.
  induction n as [|n IH]; intros us Hl.
  - exists [1]. split; [reflexivity|]. split; [exists 1; split; [now left|apply f1_neq_0]|]. intros i Hi. lia.
  - destruct (find_pivot us n) as [(us1 & u & us2 & -> & Hu)|Hz].
    + set (k := fun v : nat -> F => v n / u n).
      destruct (IH (map (fun v j => v j - k v * u j) (us1 ++ us2))) as (cs & Hc & (c0 & Hin & Hc0) & Hcs); [rewrite map_length, app_length; rewrite app_length in Hl; cbn in Hl; lia|].
      assert (Hlen : length cs = length (us1 ++ us2)) by (rewrite app_length in *; cbn in Hl; lia).
      set (s := fsum (map (fun p => fst p * k (snd p)) (combine cs (us1 ++ us2)))) in *.
      exists (firstn (length us1) cs ++ (- s) :: skipn (length us1) cs). rewrite app_length in Hlen, Hl. cbn in Hl.
      assert (L1 : length (firstn (length us1) cs) = length us1) by (apply firstn_length_le; lia).
      split; [rewrite app_length, L1; cbn; rewrite skipn_length; lia|]. split.
      * exists c0. split; [|assumption]. rewrite <- (firstn_skipn (length us1) cs) in Hin. apply in_app_or in Hin. apply in_or_app. destruct Hin; [now left|right; now right].
      * intros i Hi. rewrite lincomb_app by assumption. rewrite lincomb_cons.
        assert (E : lincomb cs (us1 ++ us2) i - s * u i = 0).
        { destruct (Nat.eq_dec i n) as [->|Ni].
          - transitivity (lincomb cs (map (fun v j => v j - k v * u j) (us1 ++ us2)) n); [symmetry; apply lincomb_sub; rewrite app_length; assumption|].
            apply lincomb_zero_at. apply Forall_forall. intros v Hv. apply in_map_iff in Hv. destruct Hv as (v' & <- & _). unfold k. field. assumption.
          - transitivity (lincomb cs (map (fun v j => v j - k v * u j) (us1 ++ us2)) i); [symmetry; apply lincomb_sub; rewrite app_length; assumption|]. apply Hcs. lia. }
        rewrite <- (firstn_skipn (length us1) cs) in E at 1. rewrite lincomb_app in E by assumption. rewrite <- E. ring.
    + destruct us as [|u us]; [discriminate|]. destruct (IH us) as (cs & Hc & (c0 & Hin & Hc0) & Hcs); [cbn in Hl; lia|]. exists (0 :: cs). split; [cbn; lia|].
      split; [exists c0; split; [now right|assumption]|]. intros i Hi. rewrite lincomb_cons.
      destruct (Nat.eq_dec i n) as [->|Ni]; [inversion Hz; subst; rewrite lincomb_zero_at by assumption; ring|]. rewrite Hcs by lia. ring.
Qed.

Definition prod (n : nat) (A B : nat -> nat -> F) (i j : nat) : F := fsum (map (fun k => A i k * B k j) (seq 0 n)).
Definition is_id (n : nat) (M : nat -> nat -> F) : Prop := forall i j, (i < n)%nat -> (j < n)%nat -> M i j = if Nat.eqb i j then 1 else 0.

Lemma lincomb_cols (B : nat -> nat -> F) cs i : forall s, lincomb cs (map (fun j i => B i j) (seq s (length cs))) i = fsum (map (fun j => nth (j - s) cs 0 * B i j) (seq s (length cs))).
Proof.
  induction cs as [|c cs IH]; intros s; [reflexivity|]. cbn [length seq map]. rewrite lincomb_cons, IH. rewrite fsum_cons. replace (nth (s - s) (c :: cs) 0) with c by (now rewrite Nat.sub_diag). f_equal.
  apply fsum_map_ext. intros j Hj. apply in_seq in Hj. replace (j - s)%nat with (S (j - S s)) by lia. reflexivity.
Qed.
Lemma pick_nat n j (g : nat -> F) : (j < n)%nat -> fsum (map (fun k => if Nat.eqb j k then g k else 0) (seq 0 n)) = g j.
Proof.
  intros Hj. rewrite <- (fsum_pick (seq 0 n) j g) by (try apply seq_NoDup; apply in_seq; lia). apply fsum_map_ext. intros k _.
  destruct (eqb_spec j k) as [->|N]; [now rewrite Nat.eqb_refl|]. destruct (Nat.eqb_spec j k); [contradiction|reflexivity].
Qed.
Lemma prod_assoc n A B C i j : prod n (prod n A B) C i j = prod n A (prod n B C) i j.
Proof.
  unfold prod. transitivity (fsum (map (fun k => fsum (map (fun l => A i l * B l k * C k j) (seq 0 n))) (seq 0 n))).
  - apply fsum_map_ext. intros k _. rewrite <- fsum_map_mul_r. reflexivity.
  - rewrite fsum_swap. apply fsum_map_ext. intros l _. rewrite <- fsum_map_mul. apply fsum_map_ext. intros k _. ring.
Qed.
Lemma prod_id_l n A B i j : is_id n A -> (i < n)%nat -> (j < n)%nat -> prod n A B i j = B i j.
Proof.
  intros HA Hi Hj. unfold prod. rewrite <- (pick_nat n i (fun k => B k j)) by assumption. apply fsum_map_ext. intros k Hk. apply in_seq in Hk. rewrite HA by lia. destruct (Nat.eqb i k); ring.
Qed.
Lemma prod_ext n A A' B B' i j : (i < n)%nat -> (j < n)%nat -> (forall a b, (a < n)%nat -> (b < n)%nat -> A a b = A' a b) -> (forall a b, (a < n)%nat -> (b < n)%nat -> B a b = B' a b) -> prod n A B i j = prod n A' B' i j.
Proof. intros Hi Hj HA HB. unfold prod. apply fsum_map_ext. intros k Hk. apply in_seq in Hk. rewrite HA, HB by lia. reflexivity. Qed.

(** A left inverse is a right inverse. *)
Theorem left_right_inverse n A B : is_id n (prod n A B) -> is_id n (prod n B A).
Proof.
  intros H.
  (* every vector is B x *)
  assert (Surj : forall y : nat -> F, exists x : nat -> F, forall i, (i < n)%nat -> fsum (map (fun j => B i j * x j) (seq 0 n)) = y i).
  { intros y. destruct (dependent n (y :: map (fun j i => B i j) (seq 0 n))) as (cs & Hc & (c0 & Hin & Hc0) & Hz); [cbn; rewrite map_length, seq_length; reflexivity|].
    destruct cs as [|c cs]; [discriminate|]. assert (Lc : length cs = n) by (cbn in Hc; lia).
    assert (Hz' : forall i, (i < n)%nat -> c * y i + fsum (map (fun j => nth j cs 0 * B i j) (seq 0 n)) = 0).
    { intros i Hi. transitivity (lincomb (c :: cs) (y :: map (fun j i => B i j) (seq 0 n)) i); [|apply Hz, Hi]. rewrite lincomb_cons. f_equal. rewrite <- Lc at 2. rewrite lincomb_cols, Lc. apply fsum_map_ext. intros j _. now rewrite Nat.sub_0_r. }
    destruct (feqb_ok c 0) as [->|Nc].
    - exfalso. assert (Z : forall j, (j < n)%nat -> nth j cs 0 = 0).
      { intros j Hj. transitivity (fsum (map (fun i => A j i * fsum (map (fun k => nth k cs 0 * B i k) (seq 0 n))) (seq 0 n))).
        - transitivity (fsum (map (fun k => (if Nat.eqb j k then nth k cs 0 else 0)) (seq 0 n))); [symmetry; apply (pick_nat n j (fun k => nth k cs 0) Hj)|].
          transitivity (fsum (map (fun k => prod n A B j k * nth k cs 0) (seq 0 n))).
          + apply fsum_map_ext. intros k Hk. apply in_seq in Hk. rewrite H by lia. destruct (Nat.eqb j k); ring.
          + unfold prod. transitivity (fsum (map (fun k => fsum (map (fun i => A j i * (nth k cs 0 * B i k)) (seq 0 n))) (seq 0 n))).
            * apply fsum_map_ext. intros k _. rewrite <- fsum_map_mul_r. apply fsum_map_ext. intros i _. ring.
            * rewrite fsum_swap. apply fsum_map_ext. intros i _. apply fsum_map_mul.
        - apply fsum_map_zero'. intros i Hi. apply in_seq in Hi. assert (E : fsum (map (fun k => nth k cs 0 * B i k) (seq 0 n)) = 0) by (transitivity (0 * y i + fsum (map (fun k => nth k cs 0 * B i k) (seq 0 n))); [ring|apply Hz'; lia]). rewrite E. ring. }
      destruct Hin as [<-|Hin]; [congruence|]. apply (In_nth _ _ 0) in Hin. destruct Hin as (j & Hj & E). rewrite Z in E by lia. congruence.
    - exists (fun j => - nth j cs 0 / c). intros i Hi. specialize (Hz' i Hi).
      transitivity (- fsum (map (fun j => nth j cs 0 * B i j) (seq 0 n)) / c).
      + transitivity (- (1) / c * fsum (map (fun j => nth j cs 0 * B i j) (seq 0 n))); [|field; assumption]. rewrite <- fsum_map_mul. apply fsum_map_ext. intros j _. field. assumption.
      + replace (fsum (map (fun j => nth j cs 0 * B i j) (seq 0 n))) with (- (c * y i)) by (transitivity (c * y i + fsum (map (fun j => nth j cs 0 * B i j) (seq 0 n)) - c * y i); [rewrite Hz'; ring|ring]). field. assumption. }
  intros i j Hi Hj. destruct (Surj (fun k => if Nat.eqb k j then 1 else 0)) as (x & Hx).
  (* column j of B A is B A B x = B x *)
  assert (E : fsum (map (fun k => prod n B A i k * (if Nat.eqb k j then 1 else 0)) (seq 0 n)) = prod n B A i j).
  { rewrite <- (pick_nat n j (fun k => prod n B A i k)) by assumption. apply fsum_map_ext. intros k _. rewrite (Nat.eqb_sym j k). destruct (Nat.eqb k j); ring. }
  rewrite <- E.
  transitivity (fsum (map (fun k => prod n B A i k * fsum (map (fun l => B k l * x l) (seq 0 n))) (seq 0 n))).
  { apply fsum_map_ext. intros k Hk. apply in_seq in Hk. rewrite Hx by lia. reflexivity. }
  transitivity (fsum (map (fun l => prod n (prod n B A) B i l * x l) (seq 0 n))).
  { unfold prod at 2. transitivity (fsum (map (fun k => fsum (map (fun l => prod n B A i k * B k l * x l) (seq 0 n))) (seq 0 n))).
    - apply fsum_map_ext. intros k _. rewrite <- fsum_map_mul. apply fsum_map_ext. intros l _. ring.
    - rewrite fsum_swap. apply fsum_map_ext. intros l _. apply fsum_map_mul_r. }
  rewrite <- (Hx i Hi). apply fsum_map_ext. intros l Hl. apply in_seq in Hl. rewrite prod_assoc. f_equal.
  unfold prod at 1. rewrite <- (pick_nat n l (fun k => B i k)) by lia. apply fsum_map_ext. intros k Hk. apply in_seq in Hk. rewrite H by lia. rewrite (Nat.eqb_sym l k). destruct (Nat.eqb k l); ring.
Qed.
End Inv.
