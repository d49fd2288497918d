(** Values of polynomials under the operations of [SpecialPolynomial]. *)
From Coq Require Import QArith Setoid Morphisms.
From Verif Require Import Base DihedralModel DihedralSpec DihedralPolyProofs.
Open Scope nat_scope.

(** ** Congruence modulo 8 *)
Lemma eq8_iff a b : eq8 a b <-> exists k, (a = b + 8 * k)%Z.
Proof.
  unfold eq8. split.
  - intros H. exists (a / 8 - b / 8)%Z. pose proof (Z.div_mod a 8). pose proof (Z.div_mod b 8). lia.
  - intros (k & ->). rewrite Z.mul_comm. apply Z_mod_plus_full.
Qed.
#[export] Instance eq8_equiv : Equivalence eq8.
Proof. split; unfold eq8; congruence. Qed.
#[export] Instance eq8_add : Proper (eq8 ==> eq8 ==> eq8) Z.add.
Proof. intros a b H c d H'. apply eq8_iff in H as (k & ->). apply eq8_iff in H' as (k' & ->). apply eq8_iff. exists (k + k')%Z. ring. Qed.
#[export] Instance eq8_mul : Proper (eq8 ==> eq8 ==> eq8) Z.mul.
Proof. intros a b H c d H'. apply eq8_iff in H as (k & ->). apply eq8_iff in H' as (k' & ->). apply eq8_iff. exists (k * d + b * k' + 8 * k * k')%Z. ring. Qed.
#[export] Instance eq8_opp : Proper (eq8 ==> eq8) Z.opp.
Proof. intros a b H. apply eq8_iff in H as (k & ->). apply eq8_iff. exists (- k)%Z. ring. Qed.
#[export] Instance eq8_sub : Proper (eq8 ==> eq8 ==> eq8) Z.sub.
Proof. intros a b H c d H'. apply eq8_iff in H as (k & ->). apply eq8_iff in H' as (k' & ->). apply eq8_iff. exists (k - k')%Z. ring. Qed.
Lemma eq8_mod a : eq8 (a mod 8) a.
Proof. unfold eq8. apply Z.mod_mod. lia. Qed.
Lemma eq8_k a b k : (a = b + 8 * k)%Z -> eq8 a b.
Proof. intros H. apply eq8_iff. exists k; exact H. Qed.
Lemma eq8_reduced a b : reduced a -> reduced b -> eq8 a b -> a = b.
Proof. unfold reduced, eq8. intros Ha Hb. rewrite !Z.mod_small by lia. auto. Qed.
Lemma eq8_zsum {A} (f g : A -> Z) l : (forall a, In a l -> eq8 (f a) (g a)) -> eq8 (zsum (map f l)) (zsum (map g l)).
Proof.
  induction l as [|a l IH]; intros H; [reflexivity|]. cbn [map zsum]. rewrite (H a) by (left; reflexivity). rewrite IH; [reflexivity|].
  intros b Hb. apply H. right; exact Hb.
Qed.
Lemma eq8_mod2 a b : eq8 a b -> (a mod 2 = 0 -> b mod 2 = 0)%Z.
Proof. intros H. apply eq8_iff in H as (k & ->). lia. Qed.
Lemma eq8_mod4 a b : eq8 a b -> (a mod 4 = 0 -> b mod 4 = 0)%Z.
Proof. intros H. apply eq8_iff in H as (k & ->). lia. Qed.

(** ** Monomials *)
Lemma monomial_bit S x : monomial S x = bit (forallb x S).
Proof. induction S as [|j S IH]; [reflexivity|]. cbn [monomial forallb]. rewrite IH. destruct (x j), (forallb x S); reflexivity. Qed.

Lemma monomial_union S T U x : (forall j, In j U <-> In j S \/ In j T) -> monomial U x = (monomial S x * monomial T x)%Z.
Proof.
  intros H. rewrite !monomial_bit.
  assert (E : forallb x U = forallb x S && forallb x T).
  { apply eq_true_iff_eq. rewrite andb_true_iff, !forallb_forall. split.
    - intros HU. split; intros j Hj; apply HU, H; auto.
    - intros [HS HT] j Hj. apply H in Hj as [Hj|Hj]; auto. }
  rewrite E. destruct (forallb x S), (forallb x T); reflexivity.
Qed.

Definition indicator (t : list nat) : point := fun j => existsb (Nat.eqb j) t.
Lemma indicator_In t j : indicator t j = true <-> In j t.
Proof.
  unfold indicator. rewrite existsb_exists. split; [intros (i & Hi & E); apply Nat.eqb_eq in E; subst; exact Hi|].
  intros H. exists j. split; [exact H | apply Nat.eqb_refl].
Qed.
Lemma indicator_low n t : length t <= 3 -> low n (indicator t).
Proof.
  intros Ht S Hnd HS _. rewrite monomial_bit. destruct (forallb (indicator t) S) eqn:E; [|reflexivity]. exfalso.
  rewrite forallb_forall in E. assert (Hi : incl S t) by (intros j Hj; apply indicator_In, E, Hj).
  pose proof (NoDup_incl_length Hnd Hi). lia.
Qed.

(** ** Uniqueness *)
Lemma tm_unique n p q : wf_poly n p -> wf_poly n q ->
  (forall x, low n x -> eq8 (value p x) (value q x)) -> forall t, In t (terms n) -> tm p t = tm q t.
Proof.
  intros Wp Wq H.
  assert (Hk : forall k t, In t (terms n) -> length t < k -> tm p t = tm q t).
  { induction k as [|k IH]; intros t Ht Hl; [lia|].
    apply eq8_reduced; [apply (get_term_tm n p t Wp Ht) | apply (get_term_tm n q t Wq Ht)|].
    pose proof Ht as Ht'. apply terms_In in Ht' as (Hl3 & Hinc & Hr).
    specialize (H (indicator t) (indicator_low n t Hl3)). rewrite !(value_tm n) in H by assumption.
    assert (E : forall r, wf_poly n r ->
       zsum (map (fun t' => (tm r t' * monomial t' (indicator t))%Z) (terms n)) =
       (zsum (map (fun t' => if eqb t t' then tm r t' else 0%Z) (terms n)) +
        zsum (map (fun t' => if Nat.ltb (length t') (length t) then (tm r t' * monomial t' (indicator t))%Z else 0%Z) (terms n)))%Z).
    { intros r Wr. rewrite <- zsum_map_add. apply zsum_map_ext. intros t' Hin.
      apply terms_In in Hin as (Hl' & Hinc' & Hr').
      destruct (eqb_spec t t') as [<-|Hne].
      - rewrite Nat.ltb_irrefl, monomial_bit. replace (forallb (indicator t) t) with true; [cbn; ring|]. symmetry. apply forallb_forall.
        intros j Hj. apply indicator_In, Hj.
      - destruct (Nat.ltb_spec (length t') (length t)) as [Hlt|Hge]; [ring|].
        rewrite monomial_bit. destruct (forallb (indicator t) t') eqn:E; [|cbn; ring]. exfalso; apply Hne.
        rewrite forallb_forall in E. assert (Hi : incl t' t) by (intros j Hj; apply indicator_In, E, Hj).
        apply increasing_ext; [exact Hinc | exact Hinc'|]. intros j. split; [|apply Hi].
        apply (NoDup_length_incl (increasing_NoDup _ Hinc')); [lia | exact Hi]. }
    rewrite (E p Wp), (E q Wq) in H. rewrite !zsum_pick in H by (exact Ht || apply terms_NoDup).
    assert (E2 : zsum (map (fun t' => if Nat.ltb (length t') (length t) then (tm p t' * monomial t' (indicator t))%Z else 0%Z) (terms n)) =
                 zsum (map (fun t' => if Nat.ltb (length t') (length t) then (tm q t' * monomial t' (indicator t))%Z else 0%Z) (terms n))).
    { apply zsum_map_ext. intros t' Hin. destruct (Nat.ltb_spec (length t') (length t)); [|reflexivity]. rewrite (IH t'); [reflexivity | exact Hin | lia]. }
    rewrite E2 in H. apply eq8_iff in H as (c & Hc). apply (eq8_k _ _ c). lia. }
  intros t Ht. apply (Hk (S (length t))); [exact Ht | lia].
Qed.

Lemma unique n p q : wf_poly n p -> wf_poly n q ->
  (forall x, low n x -> eq8 (value p x) (value q x)) -> p = q.
Proof. intros Wp Wq H. apply (poly_ext n); [exact Wp | exact Wq|]. apply tm_unique; assumption. Qed.

(** ** Elementary operations *)
Lemma value_set n p p' t c x : wf_poly n p -> wf_poly n p' -> In t (terms n) ->
  (forall t', In t' (terms n) -> tm p' t' = if eqb t t' then c else tm p t') ->
  value p' x = (value p x + (c - tm p t) * monomial t x)%Z.
Proof.
  intros W W' Ht H. rewrite !(value_tm n) by assumption.
  rewrite <- (zsum_pick (terms n) t (fun t' => (c - tm p t') * monomial t' x)%Z (terms_NoDup n) Ht), <- zsum_map_add.
  apply zsum_map_ext. intros t' Hin. rewrite H by exact Hin. destruct (eqb_spec t t') as [<-|]; ring.
Qed.

Lemma add_term_spec n p t v : wf_poly n p -> In t (terms n) ->
  exists p', add_term p t v = Ok p' /\ wf_poly n p' /\
    (forall t', In t' (terms n) -> tm p' t' = if eqb t t' then ((tm p t + v) mod 8)%Z else tm p t') /\
    forall x, eq8 (value p' x) (value p x + v * monomial t x).
Proof.
  intros W Ht. unfold add_term. rewrite (proj1 (get_term_tm n p t W Ht)). cbn [bind].
  destruct (set_term_spec n p t ((tm p t + v) mod 8)%Z W Ht) as (p' & -> & W' & H). exists p'. split; [reflexivity|]. split; [exact W'|].
  rewrite Z.mod_mod in H by lia. split; [exact H|]. intros x. rewrite (value_set n p p' t _ x W W' Ht H).
  rewrite (eq8_mod (tm p t + v)). apply eq8_k with 0%Z. ring.
Qed.

Lemma add_term_long p t v : 4 <= length t -> add_term p t v = Ok p.
Proof. intros H. unfold add_term, get_term, set_term. apply Nat.leb_le in H as ->. reflexivity. Qed.

Definition cut_monomial (S : list nat) (x : point) : Z := if length S <? 4 then monomial S x else 0%Z.

Lemma fold_add {A} n (ts : list A) (g : A -> list nat) (f : A -> Z) : forall r, wf_poly n r ->
  (forall a, In a ts -> In (g a) (terms n) \/ 4 <= length (g a)) ->
  exists r', foldM (fun r a => add_term r (g a) (f a)) ts r = Ok r' /\ wf_poly n r' /\
    (forall t, In t (terms n) -> eq8 (tm r' t) (tm r t + zsum (map (fun a => if eqb (g a) t then f a else 0%Z) ts))) /\
    forall x, eq8 (value r' x) (value r x + zsum (map (fun a => f a * cut_monomial (g a) x)%Z ts)).
Proof.
  induction ts as [|a ts IH]; intros r W H.
  - exists r. split; [reflexivity|]. split; [exact W|]. cbn. split; intros; rewrite Z.add_0_r; reflexivity.
  - cbn [foldM]. assert (H' : forall b, In b ts -> In (g b) (terms n) \/ 4 <= length (g b)) by (intros b Hb; apply H; right; exact Hb).
    destruct (H a (or_introl eq_refl)) as [Ht|Hl].
    + destruct (add_term_spec n r (g a) (f a) W Ht) as (r1 & -> & W1 & T1 & V1). cbn [bind].
      destruct (IH r1 W1 H') as (r' & -> & W' & T' & V'). exists r'. split; [reflexivity|]. split; [exact W'|]. split.
      * intros t Hin. rewrite (T' t Hin), (T1 t Hin). cbn [map zsum]. destruct (eqb_spec (g a) t) as [<-|_]; [|cbn [Z.add]; reflexivity].
        rewrite (eq8_mod (tm r (g a) + f a)). rewrite Z.add_assoc. reflexivity.
      * intros x. rewrite (V' x), (V1 x). cbn [map zsum]. unfold cut_monomial at 2.
        apply terms_In in Ht as (Hl & _). replace (length (g a) <? 4) with true by (symmetry; apply Nat.ltb_lt; lia).
        rewrite Z.add_assoc. reflexivity.
    + rewrite add_term_long by exact Hl. cbn [bind].
      destruct (IH r W H') as (r' & -> & W' & T' & V'). exists r'. split; [reflexivity|]. split; [exact W'|]. split.
      * intros t Hin. rewrite (T' t Hin). cbn [map zsum]. destruct (eqb_spec (g a) t) as [E|_]; [|reflexivity].
        exfalso. apply terms_In in Hin as (Hl' & _). rewrite E in Hl. lia.
      * intros x. rewrite (V' x). cbn [map zsum]. unfold cut_monomial at 2.
        replace (length (g a) <? 4) with false by (symmetry; apply Nat.ltb_ge; lia). rewrite Z.mul_0_r. reflexivity.
Qed.

Lemma map2_length {A B C} (f : A -> B -> C) l m : length l = length m -> length (map2 f l m) = length l.
Proof. revert m. induction l as [|a l IH]; intros [|b m] H; try discriminate; [reflexivity|]. cbn. rewrite IH; [reflexivity|]. injection H; auto. Qed.
Lemma map2_nth {A B C} (f : A -> B -> C) l m i a b c : i < length l -> length l = length m -> nth i (map2 f l m) c = f (nth i l a) (nth i m b).
Proof.
  revert m i. induction l as [|x l IH]; intros [|y m] i Hi E; try discriminate; cbn in Hi; [lia|]. destruct i; [reflexivity|]. cbn. apply IH; [lia|]. injection E; auto.
Qed.
Lemma map2_Forall {A B C} (P : C -> Prop) (f : A -> B -> C) l m : (forall a b, P (f a b)) -> Forall P (map2 f l m).
Proof. intros H. revert m. induction l as [|a l IH]; intros [|b m]; cbn; constructor; auto. Qed.

Lemma zeros_wf n : wf_poly n (zeros n).
Proof.
  assert (F : forall k, Forall reduced (repeat 0%Z k)) by (intros k; induction k; constructor; [exact reduced_0 | assumption]).
  constructor; cbn; rewrite ?repeat_length; try reflexivity; try apply F; [symmetry; apply pairs_length | symmetry; apply triples_length | exact reduced_0].
Qed.
Lemma nth_repeat0 k m : nth k (repeat 0%Z m) 0%Z = 0%Z.
Proof. revert k. induction m; intros [|k]; cbn; auto. Qed.
Lemma zeros_tm n t : In t (terms n) -> tm (zeros n) t = 0%Z.
Proof.
  intros H. pose proof (zeros_wf n) as W. destruct (terms_cases n t H) as [->|[(i & -> & Hi)|[(i & j & -> & Hp)|(i & j & k & -> & Hp)]]].
  - reflexivity.
  - rewrite (tm_1 n) by assumption. cbn [zeros w1]. apply nth_repeat0.
  - rewrite (tm_2 n) by assumption. cbn [zeros w2]. apply nth_repeat0.
  - rewrite (tm_3 n) by assumption. cbn [zeros w3]. apply nth_repeat0.
Qed.
Lemma zeros_value n x : value (zeros n) x = 0%Z.
Proof.
  rewrite (value_tm n) by apply zeros_wf. rewrite (zsum_map_ext _ (fun _ => 0%Z)); [apply zsum_map_zero|].
  intros t Ht. rewrite zeros_tm by exact Ht. reflexivity.
Qed.
Lemma zeros_special n : special (zeros n).
Proof. apply (special_tm n); [apply zeros_wf|]. split; intros t Ht; rewrite zeros_tm; auto using pairs_terms, triples_terms. Qed.

Lemma one_wf n : wf_poly n (one n).
Proof. destruct (zeros_wf n). constructor; cbn in *; try assumption. unfold reduced; lia. Qed.
Lemma one_value n x : value (one n) x = 1%Z.
Proof. pose proof (zeros_value n x) as H. unfold value in *. cbn [w0 w1 w2 w3 pn one zeros] in *. lia. Qed.

Lemma smul_spec n c p : wf_poly n p -> wf_poly n (smul c p) /\
  (forall t, In t (terms n) -> tm (smul c p) t = ((tm p t * c) mod 8)%Z) /\
  forall x, eq8 (value (smul c p) x) (c * value p x).
Proof.
  intros W. assert (W' : wf_poly n (smul c p)).
  { destruct W. constructor; cbn [smul pn w0 w1 w2 w3]; rewrite ?map_length; try assumption; try apply mod8_reduced;
      apply Forall_forall; intros z Hz; apply in_map_iff in Hz as (y & <- & _); apply mod8_reduced. }
  assert (T : forall t, In t (terms n) -> tm (smul c p) t = ((tm p t * c) mod 8)%Z).
  { intros t Ht. assert (Hn : forall l i, i < length l -> nth i (map (fun x => ((x * c) mod 8)%Z) l) 0%Z = ((nth i l 0 * c) mod 8)%Z).
    { intros l i Hi. rewrite nth_indep with (d' := ((0 * c) mod 8)%Z) by (rewrite map_length; exact Hi). rewrite (map_nth (fun x => ((x * c) mod 8)%Z)). reflexivity. }
    destruct (terms_cases n t Ht) as [->|[(i & -> & Hi)|[(i & j & -> & Hp)|(i & j & k & -> & Hp)]]].
    - rewrite !tm_0. reflexivity.
    - rewrite !(tm_1 n) by assumption. apply Hn. rewrite (wf_1 n p W). exact Hi.
    - rewrite !(tm_2 n) by assumption. apply Hn. rewrite (wf_2 n p W). apply sl2_lt, Hp.
    - rewrite !(tm_3 n) by assumption. apply Hn. rewrite (wf_3 n p W). apply sl3_lt, Hp. }
  split; [exact W'|]. split; [exact T|]. intros x. rewrite !(value_tm n) by assumption. rewrite <- zsum_map_mul.
  apply eq8_zsum. intros t Ht. rewrite (T t Ht), (eq8_mod (tm p t * c)). apply eq8_k with 0%Z. ring.
Qed.

Lemma padd_spec n p q : wf_poly n p -> wf_poly n q -> exists r, padd p q = Ok r /\ wf_poly n r /\
  (forall t, In t (terms n) -> tm r t = ((tm p t + tm q t) mod 8)%Z) /\
  forall x, eq8 (value r x) (value p x + value q x).
Proof.
  intros W V. unfold padd. rewrite (wf_n n p W), (wf_n n q V), Nat.eqb_refl. eexists. split; [reflexivity|]. set (r := {| pn := n |}).
  assert (W' : wf_poly n r).
  { pose proof W as W0. pose proof V as V0. destruct W, V. constructor; cbn [r pn w0 w1 w2 w3]; rewrite ?map2_length by congruence; try assumption; try reflexivity;
      try apply mod8_reduced; apply map2_Forall; intros; apply mod8_reduced. }
  assert (T : forall t, In t (terms n) -> tm r t = ((tm p t + tm q t) mod 8)%Z).
  { intros t Ht. assert (Hn : forall l m i, i < length l -> length l = length m -> nth i (map2 (fun x y => ((x + y) mod 8)%Z) l m) 0%Z = ((nth i l 0 + nth i m 0) mod 8)%Z).
    { intros l m i Hi E. rewrite (map2_nth _ _ _ _ 0%Z 0%Z) by assumption. reflexivity. }
    destruct (terms_cases n t Ht) as [->|[(i & -> & Hi)|[(i & j & -> & Hp)|(i & j & k & -> & Hp)]]].
    - rewrite !tm_0. reflexivity.
    - rewrite !(tm_1 n) by assumption. apply Hn; rewrite ?(wf_1 n p W), ?(wf_1 n q V); [exact Hi | reflexivity].
    - rewrite !(tm_2 n) by assumption. apply Hn; rewrite ?(wf_2 n p W), ?(wf_2 n q V); [apply sl2_lt, Hp | reflexivity].
    - rewrite !(tm_3 n) by assumption. apply Hn; rewrite ?(wf_3 n p W), ?(wf_3 n q V); [apply sl3_lt, Hp | reflexivity]. }
  split; [exact W'|]. split; [exact T|]. intros x. rewrite !(value_tm n) by assumption. rewrite <- zsum_map_add.
  apply eq8_zsum. intros t Ht. rewrite (T t Ht), (eq8_mod (tm p t + tm q t)). apply eq8_k with 0%Z. ring.
Qed.

(** ** Products *)
Section Products.
Variable set_list : list nat -> list nat -> list nat.
Variable n : nat.
Hypothesis Hset : iterates_sorted n set_list.

Lemma nil_term : In [] (terms n).
Proof. apply terms_In. cbn. split; [lia|]. split; [reflexivity | intros j []]. Qed.

Lemma mul_monomial_spec p I : wf_poly n p -> In I (terms n) -> exists r, mul_monomial set_list p I = Ok r /\ wf_poly n r /\
  forall x, low n x -> eq8 (value r x) (value p x * monomial I x).
Proof.
  intros W HI. unfold mul_monomial. pose proof HI as HI'. apply terms_In in HI' as (Hl & Hinc & Hr).
  replace (4 <=? length I) with false by (symmetry; apply Nat.leb_gt; lia). rewrite Hinc, andb_false_r.
  destruct I as [|i I].
  - exists p. split; [reflexivity|]. split; [exact W|]. intros x _. cbn [monomial]. rewrite Z.mul_1_r. reflexivity.
  - set (J := i :: I) in *. rewrite (wf_n n p W).
    assert (E : foldM (fun r t => do value <- get_term p t; add_term r (set_list t J) value) (terms n) (zeros n) =
                foldM (fun r t => add_term r (set_list t J) (tm p t)) (terms n) (zeros n)).
    { assert (G : forall ts r, (forall t, In t ts -> In t (terms n)) ->
         foldM (fun r t => do value <- get_term p t; add_term r (set_list t J) value) ts r =
         foldM (fun r t => add_term r (set_list t J) (tm p t)) ts r).
      { induction ts as [|t ts IH]; intros r Hts; [reflexivity|]. cbn [foldM].
        rewrite (proj1 (get_term_tm n p t W (Hts t (or_introl eq_refl)))). cbn [bind].
        destruct (add_term r (set_list t J) (tm p t)); [|reflexivity]. cbn [bind]. apply IH. intros t' Ht'. apply Hts. right; exact Ht'. }
      apply G. auto. }
    rewrite E. destruct (fold_add n (terms n) (fun t => set_list t J) (tm p) (zeros n) (zeros_wf n)) as (r & Hf & Wr & _ & Vr).
    + intros t Ht. destruct (Hset t J Ht HI) as [Hs Hin]. destruct (Nat.lt_ge_cases (length (set_list t J)) 4); [left | right; assumption].
      apply terms_In. split; [lia|]. split; [exact Hs|]. intros j Hj. apply Hin in Hj as [Hj|Hj]; [apply terms_In in Ht; apply Ht, Hj | apply Hr, Hj].
    + exists r. split; [exact Hf|]. split; [exact Wr|]. intros x Hx. rewrite (Vr x), zeros_value, (value_tm n p x W).
      cbn [Z.add]. rewrite Z.mul_comm, <- zsum_map_mul. apply eq8_zsum. intros t Ht. destruct (Hset t J Ht HI) as [Hs Hin].
      assert (Ec : cut_monomial (set_list t J) x = monomial (set_list t J) x).
      { unfold cut_monomial. destruct (Nat.ltb_spec (length (set_list t J)) 4) as [|Hge]; [reflexivity|]. symmetry. apply Hx.
        - apply increasing_NoDup, Hs.
        - exact Hge.
        - intros j Hj. apply Hin in Hj as [Hj|Hj]; [apply terms_In in Ht; apply Ht, Hj | apply Hr, Hj]. }
      rewrite Ec, (monomial_union t J _ x Hin). apply eq8_k with 0%Z. ring.
Qed.

Lemma pmul_spec p q : wf_poly n p -> wf_poly n q -> exists r, pmul set_list p q = Ok r /\ wf_poly n r /\
  forall x, low n x -> eq8 (value r x) (value p x * value q x).
Proof.
  intros Wp Wq. unfold pmul. rewrite (wf_n n p Wp), (wf_n n q Wq), Nat.eqb_refl.
  assert (G : forall ts r, (forall t, In t ts -> In t (terms n)) -> wf_poly n r ->
     exists r', foldM (fun r t => do value <- get_term q t;
        if (value =? 0)%Z then Ok r else do tmp <- mul_monomial set_list p t; padd r (smul value tmp)) ts r = Ok r' /\
       wf_poly n r' /\ forall x, low n x -> eq8 (value r' x) (value r x + value p x * zsum (map (fun t => tm q t * monomial t x)%Z ts))).
  { induction ts as [|t ts IH]; intros r Hts Wr.
    - exists r. split; [reflexivity|]. split; [exact Wr|]. intros x _. cbn. apply eq8_k with 0%Z. ring.
    - assert (Ht : In t (terms n)) by (apply Hts; left; reflexivity).
      assert (Hts' : forall t, In t ts -> In t (terms n)) by (intros t' Ht'; apply Hts; right; exact Ht').
      cbn [foldM]. rewrite (proj1 (get_term_tm n q t Wq Ht)). cbn [bind]. destruct (Z.eqb_spec (tm q t) 0) as [E0|_].
      + destruct (IH r Hts' Wr) as (r' & Hf & Wr' & V). exists r'. split; [exact Hf|]. split; [exact Wr'|].
        intros x Hx. rewrite (V x Hx). cbn [map zsum]. rewrite E0. apply eq8_k with 0%Z. ring.
      + destruct (mul_monomial_spec p t Wp Ht) as (tmp & -> & Wt & Vt). cbn [bind].
        destruct (smul_spec n (tm q t) tmp Wt) as (Ws & _ & Vs).
        destruct (padd_spec n r _ Wr Ws) as (r1 & -> & W1 & _ & V1). cbn [bind].
        destruct (IH r1 Hts' W1) as (r' & Hf & Wr' & V). exists r'. split; [exact Hf|]. split; [exact Wr'|].
        intros x Hx. rewrite (V x Hx), (V1 x), (Vs x), (Vt x Hx). cbn [map zsum]. apply eq8_k with 0%Z. ring. }
  destruct (G (terms n) (zeros n) (fun _ h => h) (zeros_wf n)) as (r & Hf & Wr & V). exists r. split; [exact Hf|]. split; [exact Wr|].
  intros x Hx. rewrite (V x Hx), zeros_value, (value_tm n q x Wq). reflexivity.
Qed.

Lemma pmul_list vars : (forall v, In v vars -> wf_poly n v) -> forall acc, wf_poly n acc ->
  exists r, foldM (pmul set_list) vars acc = Ok r /\ wf_poly n r /\
    forall x, low n x -> eq8 (value r x) (value acc x * fold_right Z.mul 1%Z (map (fun v => value v x) vars)).
Proof.
  induction vars as [|v vars IH]; intros Hv acc Wa.
  - exists acc. split; [reflexivity|]. split; [exact Wa|]. intros x _. cbn. rewrite Z.mul_1_r. reflexivity.
  - cbn [foldM]. destruct (pmul_spec acc v Wa (Hv v (or_introl eq_refl))) as (a1 & -> & W1 & V1). cbn [bind].
    destruct (IH (fun u Hu => Hv u (or_intror Hu)) a1 W1) as (r & Hf & Wr & V). exists r. split; [exact Hf|]. split; [exact Wr|].
    intros x Hx. rewrite (V x Hx), (V1 x Hx). cbn [map fold_right]. apply eq8_k with 0%Z. ring.
Qed.

Lemma mapM_index {A} (xs : list A) (d : A) t : (forall j, In j t -> j < length xs) -> mapM (index_e xs) t = Ok (map (fun j => nth j xs d) t).
Proof.
  induction t as [|j t IH]; intros H; [reflexivity|]. cbn [mapM map]. rewrite (index_e_ok xs j d) by (apply H; left; reflexivity).
  cbn [bind]. rewrite IH by (intros i Hi; apply H; right; exact Hi). reflexivity.
Qed.

Lemma evaluate_spec p xs (y : point -> point) : wf_poly n p -> length xs = n -> (forall v, In v xs -> wf_poly n v) ->
  (forall x j, j < n -> eq8 (value (nth j xs (zeros n)) x) (bit (y x j))) ->
  exists r, evaluate set_list p xs = Ok r /\ wf_poly n r /\ forall x, low n x -> eq8 (value r x) (value p (y x)).
Proof.
  intros Wp Hl Hw Hy. unfold evaluate. rewrite Hl, (wf_n n p Wp), Nat.eqb_refl. cbn [negb].
  replace (forallb (fun q => pn q =? n) xs) with true.
  2:{ symmetry. apply forallb_forall. intros v Hv. apply Nat.eqb_eq. apply (wf_n n v (Hw v Hv)). }
  cbn [negb].
  set (step := fun r t => do value <- get_term p t; if (value =? 0)%Z then Ok r else
       do vars <- mapM (index_e xs) t; do newterm <- foldM (pmul set_list) vars (one n); padd r (smul value newterm)).
  assert (G : forall ts r, (forall t, In t ts -> In t (terms n)) -> wf_poly n r ->
     exists r', foldM step ts r = Ok r' /\ wf_poly n r' /\
       forall x, low n x -> eq8 (value r' x) (value r x + zsum (map (fun t => tm p t * monomial t (y x))%Z ts))).
  { induction ts as [|t ts IH]; intros r Hts Wr.
    - exists r. split; [reflexivity|]. split; [exact Wr|]. intros x _. cbn. apply eq8_k with 0%Z. ring.
    - assert (Ht : In t (terms n)) by (apply Hts; left; reflexivity).
      assert (Hts' : forall t, In t ts -> In t (terms n)) by (intros t' Ht'; apply Hts; right; exact Ht').
      cbn [foldM]. unfold step at 1. rewrite (proj1 (get_term_tm n p t Wp Ht)). cbn [bind]. destruct (Z.eqb_spec (tm p t) 0) as [E0|_].
      + destruct (IH r Hts' Wr) as (r' & Hf & Wr' & V). exists r'. split; [exact Hf|]. split; [exact Wr'|].
        intros x Hx. rewrite (V x Hx). cbn [map zsum]. rewrite E0. apply eq8_k with 0%Z. ring.
      + pose proof Ht as Ht'. apply terms_In in Ht' as (_ & _ & Hr).
        rewrite (mapM_index xs (zeros n)) by (rewrite Hl; exact Hr). cbn [bind].
        destruct (pmul_list (map (fun j => nth j xs (zeros n)) t)) with (acc := one n) as (nt & -> & Wn & Vn).
        { intros v Hv. apply in_map_iff in Hv as (j & <- & Hj). apply Hw, nth_In. rewrite Hl. apply Hr, Hj. }
        { apply one_wf. }
        cbn [bind]. destruct (smul_spec n (tm p t) nt Wn) as (Ws & _ & Vs).
        destruct (padd_spec n r _ Wr Ws) as (r1 & -> & W1 & _ & V1). cbn [bind].
        destruct (IH r1 Hts' W1) as (r' & Hf & Wr' & V). exists r'. split; [exact Hf|]. split; [exact Wr'|].
        intros x Hx. rewrite (V x Hx), (V1 x), (Vs x), (Vn x Hx), one_value. cbn [map zsum].
        assert (Em : eq8 (fold_right Z.mul 1%Z (map (fun v => value v x) (map (fun j => nth j xs (zeros n)) t))) (monomial t (y x))).
        { clear -Hr Hy. induction t as [|j t IH]; [reflexivity|]. cbn [map fold_right monomial].
          rewrite (Hy x j) by (apply Hr; left; reflexivity). rewrite IH; [reflexivity|]. intros i Hi. apply Hr. right; exact Hi. }
        rewrite Em. apply eq8_k with 0%Z. ring. }
  destruct (G (terms n) (zeros n) (fun _ h => h) (zeros_wf n)) as (r & Hf & Wr & V). exists r. split; [exact Hf|]. split; [exact Wr|].
  intros x Hx. rewrite (V x Hx), zeros_value, (value_tm n p (y x) Wp). reflexivity.
Qed.
End Products.
