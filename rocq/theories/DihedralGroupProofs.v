(** Affine substitutions, the product of group elements, and the generators. *)
From Coq Require Import QArith Setoid Morphisms.
From Verif Require Import Base DihedralModel DihedralSpec DihedralPolyProofs DihedralValueProofs.
Open Scope nat_scope.

(** ** Elementary symmetric sums and parity *)
Definition sym (k : nat) (J : list nat) (x : point) : Z := zsum (map (fun t => monomial t x) (combs J k)).
Lemma sym_0 J x : sym 0 J x = 1%Z.
Proof. unfold sym. rewrite combs_0. reflexivity. Qed.
Lemma sym_cons k a J x : sym (S k) (a :: J) x = (bit (x a) * sym k J x + sym (S k) J x)%Z.
Proof.
  unfold sym. rewrite combs_cons, map_app, zsum_app, map_map. f_equal. rewrite <- zsum_map_mul. reflexivity.
Qed.
Definition xsum (l : list bool) : bool := fold_right xorb false l.
Lemma bit_xor a b : bit (xorb a b) = (bit a + bit b - 2 * (bit a * bit b))%Z.
Proof. destruct a, b; reflexivity. Qed.
Lemma bit_neg a : bit (negb a) = (1 - bit a)%Z.
Proof. destruct a; reflexivity. Qed.

Lemma sym_parity J x : eq8 (sym 1 J x - 2 * sym 2 J x + 4 * sym 3 J x) (bit (xsum (map x J))).
Proof.
  induction J as [|a J IH]; [reflexivity|]. cbn [map xsum fold_right]. change (fold_right xorb false (map x J)) with (xsum (map x J)).
  rewrite bit_xor, <- IH, !sym_cons, sym_0. apply eq8_k with (- bit (x a) * sym 3 J x * (-1))%Z. ring.
Qed.

Lemma parity_support n row x : parity n row x = xsum (map x (support n row)).
Proof.
  unfold parity, support. induction (seq 0 n) as [|j l IH]; [reflexivity|]. cbn [map fold_right filter]. rewrite IH.
  destruct (nth j row false); [reflexivity|]. cbn [andb]. rewrite xorb_false_l. reflexivity.
Qed.

Lemma combs_sub (J : list nat) k t : In t (combs J k) ->
  length t = k /\ (forall j, In j t -> In j J) /\ (increasing J = true -> increasing t = true).
Proof.
  revert k t. induction J as [|a J IH]; intros k t H.
  - destruct k; cbn in H; [destruct H as [<-|[]] | destruct H]. cbn. split; [reflexivity|]. split; [intros j [] | reflexivity].
  - destruct k as [|k]; [rewrite combs_0 in H; destruct H as [<-|[]]; cbn; split; [reflexivity|]; split; [intros j [] | reflexivity]|].
    rewrite combs_cons, in_app_iff in H. destruct H as [H|H].
    + apply in_map_iff in H as (t' & <- & H). destruct (IH k t' H) as (Hl & Hs & Hi). split; [cbn; lia|]. split.
      * intros j [->|Hj]; [left; reflexivity | right; apply Hs, Hj].
      * intros HJ. apply increasing_cons in HJ as [Ha HJ]. apply increasing_cons. split; [intros j Hj; apply Ha, Hs, Hj | apply Hi, HJ].
    + destruct (IH (S k) t H) as (Hl & Hs & Hi). split; [exact Hl|]. split; [intros j Hj; right; apply Hs, Hj|].
      intros HJ. apply increasing_cons in HJ as [_ HJ]. apply Hi, HJ.
Qed.

Lemma increasing_seq a m : increasing (seq a m) = true.
Proof.
  revert a. induction m as [|m IH]; intros a; [reflexivity|]. cbn [seq]. apply increasing_cons. split; [|apply IH].
  intros j Hj. apply in_seq in Hj. lia.
Qed.
Lemma increasing_filter f l : increasing l = true -> increasing (filter f l) = true.
Proof.
  induction l as [|a l IH]; intros H; [reflexivity|]. apply increasing_cons in H as [Ha H]. cbn [filter]. destruct (f a); [|auto].
  apply increasing_cons. split; [|auto]. intros j Hj. apply filter_In in Hj. apply Ha, Hj.
Qed.
Lemma support_increasing n row : increasing (support n row) = true.
Proof. apply increasing_filter, increasing_seq. Qed.
Lemma support_lt n row j : In j (support n row) -> j < n.
Proof. intros H. apply filter_In in H as [H _]. apply in_seq in H. lia. Qed.

Lemma combs_support_terms n row k t : k <= 3 -> In t (combs (support n row) k) -> In t (terms n).
Proof.
  intros Hk H. apply combs_sub in H as (Hl & Hs & Hi). apply terms_In. split; [lia|]. split; [apply Hi, support_increasing|].
  intros j Hj. apply (support_lt n row), Hs, Hj.
Qed.

Lemma insert_sorted_head a l : (forall j, In j l -> a < j) -> insert_sorted a l = a :: l.
Proof. destruct l as [|b l]; [reflexivity|]. intros H. cbn. specialize (H b (or_introl eq_refl)). replace (a <=? b) with true by (symmetry; apply Nat.leb_le; lia). reflexivity. Qed.
Lemma sorted_increasing l : increasing l = true -> sorted l = l.
Proof.
  induction l as [|a l IH]; intros H; [reflexivity|]. apply increasing_cons in H as [Ha H]. cbn. unfold sorted in IH. rewrite (IH H).
  apply insert_sorted_head, Ha.
Qed.

(** ** Setting distinct coefficients *)
Lemma fold_set n c ts : forall p, wf_poly n p -> NoDup ts -> (forall t, In t ts -> In t (terms n)) -> (forall t, In t ts -> tm p t = 0%Z) ->
  exists p', foldM (fun p t => set_term p t c) ts p = Ok p' /\ wf_poly n p' /\
    (forall t, In t (terms n) -> (In t ts -> tm p' t = (c mod 8)%Z) /\ (~ In t ts -> tm p' t = tm p t)) /\
    forall x, eq8 (value p' x) (value p x + c * zsum (map (fun t => monomial t x) ts)).
Proof.
  induction ts as [|t ts IH]; intros p W Hnd Hts H0.
  - exists p. split; [reflexivity|]. split; [exact W|]. split; [intros t Ht; split; [intros [] | reflexivity]|].
    intros x. cbn. rewrite Z.mul_0_r, Z.add_0_r. reflexivity.
  - inversion Hnd as [|? ? Hn Hnd']; subst. assert (Ht : In t (terms n)) by (apply Hts; left; reflexivity).
    cbn [foldM]. destruct (set_term_spec n p t c W Ht) as (p1 & -> & W1 & T1). cbn [bind].
    destruct (IH p1 W1 Hnd') as (p' & Hf & W' & T' & V').
    + intros t' Ht'. apply Hts. right; exact Ht'.
    + intros t' Ht'. rewrite T1 by (apply Hts; right; exact Ht'). destruct (eqb_spec t t') as [->|_]; [contradiction|]. apply H0. right; exact Ht'.
    + exists p'. split; [exact Hf|]. split; [exact W'|]. split.
      * intros t' Ht'. destruct (T' t' Ht') as [Ta Tb]. specialize (T1 t' Ht'). split.
        -- intros [->|Hin]; [|auto]. rewrite (Tb Hn), T1, eqb_refl. reflexivity.
        -- intros Hno. rewrite Tb by (intros ?; apply Hno; right; assumption). rewrite T1.
           destruct (eqb_spec t t') as [->|_]; [exfalso; apply Hno; left; reflexivity | reflexivity].
      * intros x. rewrite (V' x). rewrite (value_set n p p1 t (c mod 8) x W W1 Ht T1). rewrite H0 by (left; reflexivity).
        cbn [map zsum]. rewrite Z.sub_0_r, (eq8_mod c). apply eq8_k with 0%Z. ring.
Qed.


Lemma foldM_map {A B C} (g : A -> C) (f : B -> C -> result B) l : forall b, foldM f (map g l) b = foldM (fun b a => f b (g a)) l b.
Proof. induction l as [|a l IH]; intros b; [reflexivity|]. cbn [map foldM]. destruct (f b (g a)); [apply IH | reflexivity]. Qed.
Lemma foldM_ext {A B} (f g : B -> A -> result B) l : (forall b a, In a l -> f b a = g b a) -> forall b, foldM f l b = foldM g l b.
Proof.
  induction l as [|a l IH]; intros H b; [reflexivity|]. cbn [foldM]. rewrite H by (left; reflexivity). destruct (g b a); [|reflexivity].
  cbn [bind]. apply IH. intros b' a' Ha'. apply H. right; exact Ha'.
Qed.

Lemma set_pj_spec n row : exists p, set_pj n (support n row) = Ok p /\ wf_poly n p /\ special p /\
  forall x, eq8 (value p x) (bit (parity n row x)).
Proof.
  unfold set_pj. set (J := support n row).
  assert (HJ : existsb (fun i => n <=? i) J = false).
  { apply not_true_iff_false. intros H. apply existsb_exists in H as (i & Hi & E). apply Nat.leb_le in E. apply support_lt in Hi. lia. }
  rewrite HJ. rewrite (sorted_increasing J) by apply support_increasing. cbn beta zeta.
  assert (ND : NoDup J) by (apply increasing_NoDup, support_increasing).
  rewrite <- (foldM_map (fun i => [i]) (fun p t => set_term p t 1)), <- combs_1.
  assert (Len : forall k t, In t (combs J k) -> length t = k) by (intros k t Ht; apply (combs_sub J k t Ht)).
  assert (In3 : forall k t, k <= 3 -> In t (combs J k) -> In t (terms n)) by (intros k t; apply combs_support_terms).
  destruct (fold_set n 1 (combs J 1) (zeros n) (zeros_wf n)) as (p1 & -> & W1 & T1 & V1).
  { apply combs_NoDup, ND. } { intros t. apply In3; lia. } { intros t Ht. apply zeros_tm, (In3 1); [lia | exact Ht]. }
  cbn [bind].
  assert (Z1 : forall t, In t (terms n) -> length t <> 1 -> tm p1 t = 0%Z).
  { intros t Ht Hl. rewrite (proj2 (T1 t Ht)); [apply zeros_tm, Ht|]. intros H. apply Len in H. contradiction. }
  destruct (fold_set n 6 (combs J 2) p1 W1) as (p2 & -> & W2 & T2 & V2).
  { apply combs_NoDup, ND. } { intros t. apply In3; lia. } { intros t Ht. apply Z1; [apply (In3 2); [lia | exact Ht] | apply Len in Ht; lia]. }
  cbn [bind].
  assert (Z2 : forall t, In t (terms n) -> 2 < length t -> tm p2 t = 0%Z).
  { intros t Ht Hl. rewrite (proj2 (T2 t Ht)); [apply Z1; [exact Ht | lia]|]. intros H. apply Len in H. lia. }
  destruct (fold_set n 4 (combs J 3) p2 W2) as (p3 & -> & W3 & T3 & V3).
  { apply combs_NoDup, ND. } { intros t. apply In3; lia. } { intros t Ht. apply Z2; [apply (In3 3); [lia | exact Ht] | apply Len in Ht; lia]. }
  exists p3. split; [reflexivity|]. split; [exact W3|]. split.
  - apply (special_tm n p3 W3). split; intros t Ht.
    + assert (Hl : length t = 2) by (rewrite pairs_combs in Ht; apply (combs_sub _ _ _ Ht)). apply pairs_terms in Ht.
      rewrite (proj2 (T3 t Ht)) by (intros H; apply Len in H; lia).
      destruct (in_dec (list_eq_dec Nat.eq_dec) t (combs J 2)) as [Hin|Hno].
      * rewrite (proj1 (T2 t Ht) Hin). reflexivity.
      * rewrite (proj2 (T2 t Ht) Hno), Z1 by (exact Ht || lia). reflexivity.
    + assert (Hl : length t = 3) by (rewrite triples_combs in Ht; apply (combs_sub _ _ _ Ht)). apply triples_terms in Ht.
      destruct (in_dec (list_eq_dec Nat.eq_dec) t (combs J 3)) as [Hin|Hno].
      * rewrite (proj1 (T3 t Ht) Hin). reflexivity.
      * rewrite (proj2 (T3 t Ht) Hno), Z2 by (exact Ht || lia). reflexivity.
  - intros x. rewrite (V3 x), (V2 x), (V1 x), zeros_value, parity_support. fold J. rewrite <- (sym_parity J x). unfold sym.
    apply eq8_k with (zsum (map (fun t => monomial t x) (combs J 2))). ring.
Qed.

(** Polynomials with the constant term changed. *)
Lemma set_w0 n p c : wf_poly n p -> special p -> let p' := {| pn := pn p; w0 := (c mod 8)%Z; w1 := w1 p; w2 := w2 p; w3 := w3 p |} in
  wf_poly n p' /\ special p' /\ forall x, eq8 (value p' x) (value p x - w0 p + c).
Proof.
  intros W S p'. split; [|split].
  - destruct W. constructor; cbn; try assumption. apply mod8_reduced.
  - exact S.
  - intros x. unfold value, p'. cbn [pn w0 w1 w2 w3]. rewrite (eq8_mod c). apply eq8_k with 0%Z. ring.
Qed.

Lemma smul_special n c p : wf_poly n p -> special p -> special (smul c p).
Proof.
  intros W S. destruct (smul_spec n c p W) as (W' & T & _). apply (special_tm n _ W'). apply (special_tm n _ W) in S as [S2 S3].
  split; intros t Ht.
  - rewrite T by apply pairs_terms, Ht. apply (eq8_mod2 (tm p t * c)); [symmetry; apply eq8_mod|]. rewrite Z.mul_mod by lia. rewrite (S2 t Ht). reflexivity.
  - rewrite T by apply triples_terms, Ht. apply (eq8_mod4 (tm p t * c)); [symmetry; apply eq8_mod|]. rewrite Z.mul_mod by lia. rewrite (S3 t Ht). reflexivity.
Qed.
Lemma padd_special n p q r : wf_poly n p -> wf_poly n q -> padd p q = Ok r -> special p -> special q -> special r.
Proof.
  intros W V E S S'. destruct (padd_spec n p q W V) as (r' & E' & W' & T & _). rewrite E in E'. injection E' as <-.
  apply (special_tm n _ W'). apply (special_tm n _ W) in S as [S2 S3]. apply (special_tm n _ V) in S' as [S2' S3'].
  split; intros t Ht.
  - rewrite T by apply pairs_terms, Ht. apply (eq8_mod2 (tm p t + tm q t)); [symmetry; apply eq8_mod|]. rewrite Z.add_mod by lia. rewrite (S2 t Ht), (S2' t Ht). reflexivity.
  - rewrite T by apply triples_terms, Ht. apply (eq8_mod4 (tm p t + tm q t)); [symmetry; apply eq8_mod|]. rewrite Z.add_mod by lia. rewrite (S3 t Ht), (S3' t Ht). reflexivity.
Qed.

Lemma new_var_spec n row s : exists p, new_var n row s = Ok p /\ wf_poly n p /\ special p /\
  forall x, eq8 (value p x) (bit (xorb (parity n row x) s)).
Proof.
  unfold new_var. destruct (set_pj_spec n row) as (p & -> & W & S & V). cbn [bind]. destruct s.
  - destruct (smul_spec n (-1) p W) as (W' & _ & V'). pose proof (smul_special n (-1) p W S) as S'.
    destruct (set_w0 n (smul (-1) p) (w0 (smul (-1) p) + 1)%Z W' S') as (W2 & S2 & V2).
    eexists. split; [reflexivity|]. split; [exact W2|]. split; [exact S2|]. intros x. rewrite (V2 x), (V' x), (V x).
    rewrite bit_xor. cbn [bit]. apply eq8_k with 0%Z. ring.
  - exists p. split; [reflexivity|]. split; [exact W|]. split; [exact S|]. intros x. rewrite xorb_false_r. apply V.
Qed.

(** ** Functions with a special polynomial *)
Definition rep (n : nat) (g : point -> Z) : Prop := exists q, wf_poly n q /\ special q /\ forall x, eq8 (value q x) (g x).
Lemma rep_ext n f g : (forall x, eq8 (f x) (g x)) -> rep n f -> rep n g.
Proof. intros H (q & W & S & V). exists q. split; [exact W|]. split; [exact S|]. intros x. rewrite V. apply H. Qed.
Lemma rep_add n f g : rep n f -> rep n g -> rep n (fun x => f x + g x)%Z.
Proof.
  intros (p & W & S & V) (q & W' & S' & V'). destruct (padd_spec n p q W W') as (r & E & Wr & _ & Vr). exists r. split; [exact Wr|].
  split; [apply (padd_special n p q r); assumption|]. intros x. rewrite (Vr x), (V x), (V' x). reflexivity.
Qed.
Lemma rep_scale n c f : rep n f -> rep n (fun x => c * f x)%Z.
Proof.
  intros (p & W & S & V). destruct (smul_spec n c p W) as (W' & _ & V'). exists (smul c p). split; [exact W'|].
  split; [apply (smul_special n); assumption|]. intros x. rewrite (V' x), (V x). reflexivity.
Qed.
Lemma rep_zero n : rep n (fun _ => 0%Z).
Proof. exists (zeros n). split; [apply zeros_wf|]. split; [apply zeros_special|]. intros x. rewrite zeros_value. reflexivity. Qed.
Lemma rep_const n c : rep n (fun _ => c).
Proof.
  destruct (set_w0 n (zeros n) c (zeros_wf n) (zeros_special n)) as (W & S & V). eexists. split; [exact W|]. split; [exact S|].
  intros x. rewrite (V x), zeros_value. reflexivity.
Qed.
Lemma rep_sum {A} n (f : A -> point -> Z) l : (forall a, In a l -> rep n (f a)) -> rep n (fun x => zsum (map (fun a => f a x) l)).
Proof.
  induction l as [|a l IH]; intros H; [apply rep_zero|]. cbn [map zsum]. apply rep_add; [apply H; left; reflexivity|].
  apply IH. intros b Hb. apply H. right; exact Hb.
Qed.

(** Affine bits. *)
Definition aff (n : nat) (row : list bool) (s : bool) (x : point) : bool := xorb (parity n row x) s.
Lemma rep_aff n row s : rep n (fun x => bit (aff n row s x)).
Proof. destruct (new_var_spec n row s) as (p & _ & W & S & V). exists p. split; [exact W|]. split; [exact S | exact V]. Qed.

Lemma xsum_map_xor {A} (f g : A -> bool) l : xsum (map (fun a => xorb (f a) (g a)) l) = xorb (xsum (map f l)) (xsum (map g l)).
Proof.
  induction l as [|a l IH]; [reflexivity|]. cbn [map xsum fold_right] in *. unfold xsum in IH. rewrite IH.
  destruct (f a), (g a), (fold_right xorb false (map f l)), (fold_right xorb false (map g l)); reflexivity.
Qed.
Lemma xsum_map_and {A} (f : A -> bool) b l : xsum (map (fun a => b && f a) l) = b && xsum (map f l).
Proof. induction l as [|a l IH]; [destruct b; reflexivity|]. cbn [map xsum fold_right] in *. unfold xsum in IH. rewrite IH. destruct b; reflexivity. Qed.
Lemma xsum_swap {A B} (f : A -> B -> bool) l m :
  xsum (map (fun a => xsum (map (f a) m)) l) = xsum (map (fun b => xsum (map (fun a => f a b) l)) m).
Proof.
  induction l as [|a l IH]; [cbn; induction m as [|b m IHm]; [reflexivity | cbn; unfold xsum in IHm; rewrite <- IHm; reflexivity]|].
  cbn [map xsum fold_right] in *. unfold xsum in *. rewrite IH. change (fold_right xorb false (map (f a) m)) with (xsum (map (f a) m)).
  change (fold_right xorb false (map (fun b => fold_right xorb false (map (fun a0 => f a0 b) l)) m)) with
    (xsum (map (fun b => xsum (map (fun a0 => f a0 b) l)) m)). rewrite <- xsum_map_xor. reflexivity.
Qed.
Lemma xsum_ext {A} (f g : A -> bool) l : (forall a, In a l -> f a = g a) -> xsum (map f l) = xsum (map g l).
Proof. intros H. rewrite (map_ext_in _ _ _ H). reflexivity. Qed.

Lemma parity_ext n row x y : same n x y -> parity n row x = parity n row y.
Proof. intros H. apply xsum_ext. intros j Hj. apply in_seq in Hj. rewrite (H j) by lia. reflexivity. Qed.
Lemma parity_xor n r r' x : length r = n -> length r' = n -> parity n (map2 xorb r r') x = xorb (parity n r x) (parity n r' x).
Proof.
  intros Hr Hr'. unfold parity. change (fold_right xorb false) with xsum. rewrite <- xsum_map_xor. apply xsum_ext. intros j Hj. apply in_seq in Hj.
  rewrite (map2_nth xorb r r' j false false) by lia. destruct (nth j r false), (nth j r' false), (x j); reflexivity.
Qed.
Lemma aff_xor n r r' s s' x : length r = n -> length r' = n -> aff n (map2 xorb r r') (xorb s s') x = xorb (aff n r s x) (aff n r' s' x).
Proof. intros Hr Hr'. unfold aff. rewrite parity_xor by assumption. destruct (parity n r x), (parity n r' x), s, s'; reflexivity. Qed.

Lemma rep_aff2 n r s r' s' : length r = n -> length r' = n -> rep n (fun x => 2 * (bit (aff n r s x) * bit (aff n r' s' x)))%Z.
Proof.
  intros Hr Hr'. apply rep_ext with (f := (fun x => (bit (aff n r s x) + bit (aff n r' s' x)) + (-1) * bit (aff n (map2 xorb r r') (xorb s s') x))%Z).
  - intros x. rewrite aff_xor by assumption. rewrite bit_xor. apply eq8_k with 0%Z. ring.
  - apply rep_add; [apply rep_add; apply rep_aff | apply rep_scale, rep_aff].
Qed.
Lemma rep_aff3 n r1 s1 r2 s2 r3 s3 : length r1 = n -> length r2 = n -> length r3 = n ->
  rep n (fun x => 4 * (bit (aff n r1 s1 x) * bit (aff n r2 s2 x) * bit (aff n r3 s3 x)))%Z.
Proof.
  intros H1 H2 H3.
  apply rep_ext with (f := (fun x => (2 * (bit (aff n r1 s1 x) * bit (aff n r3 s3 x)) + 2 * (bit (aff n r2 s2 x) * bit (aff n r3 s3 x))) +
     (-1) * (2 * (bit (aff n (map2 xorb r1 r2) (xorb s1 s2) x) * bit (aff n r3 s3 x))))%Z).
  - intros x. rewrite aff_xor by assumption. rewrite bit_xor. apply eq8_k with 0%Z. ring.
  - apply rep_add; [apply rep_add; apply rep_aff2; assumption | apply rep_scale, rep_aff2; [rewrite map2_length; congruence | assumption]].
Qed.

Lemma rep_subst n p (lin : list (list bool)) (sh : list bool) : wf_poly n p -> special p ->
  (forall i, i < n -> length (nth i lin []) = n) ->
  rep n (fun x => value p (fun i => aff n (nth i lin []) (nth i sh false) x)).
Proof.
  intros W S Hl. apply rep_ext with (f := fun x => zsum (map (fun t => tm p t * monomial t (fun i => aff n (nth i lin []) (nth i sh false) x))%Z (terms n))).
  - intros x. rewrite (value_tm n p _ W). reflexivity.
  - apply (special_tm n p W) in S as [S2 S3]. apply rep_sum. intros t Ht. pose proof Ht as Ht'. apply terms_In in Ht' as (_ & _ & Hr).
    destruct (terms_cases n t Ht) as [->|[(i & -> & Hi)|[(i & j & -> & Hp)|(i & j & k & -> & Hp)]]].
    + apply rep_ext with (f := fun _ => tm p []); [intros x; cbn; rewrite Z.mul_1_r; reflexivity | apply rep_const].
    + apply rep_ext with (f := fun x => (tm p [i] * bit (aff n (nth i lin []) (nth i sh false) x))%Z).
      * intros x. cbn [monomial]. rewrite Z.mul_1_r. reflexivity.
      * apply rep_scale, rep_aff.
    + apply rep_ext with (f := fun x => (tm p [i; j] / 2 * (2 * (bit (aff n (nth i lin []) (nth i sh false) x) * bit (aff n (nth j lin []) (nth j sh false) x))))%Z).
      * intros x. cbn [monomial]. specialize (S2 _ Hp). pose proof (Z.div_mod (tm p [i; j]) 2 ltac:(lia)) as E. apply eq8_k with 0%Z.
        rewrite E at 2. rewrite S2. ring.
      * apply rep_scale, rep_aff2; apply Hl, Hr; cbn; auto.
    + apply rep_ext with (f := fun x => (tm p [i; j; k] / 4 * (4 * (bit (aff n (nth i lin []) (nth i sh false) x) * bit (aff n (nth j lin []) (nth j sh false) x) *
           bit (aff n (nth k lin []) (nth k sh false) x))))%Z).
      * intros x. cbn [monomial]. specialize (S3 _ Hp). pose proof (Z.div_mod (tm p [i; j; k]) 4 ltac:(lia)) as E. apply eq8_k with 0%Z.
        rewrite E at 2. rewrite S3. ring.
      * apply rep_scale, rep_aff3; apply Hl, Hr; cbn; auto.
Qed.

(** ** Linear algebra over the two-element field *)
Lemma nth_map_seq {A} (f : nat -> A) n i d : i < n -> nth i (map f (seq 0 n)) d = f i.
Proof. intros H. rewrite nth_indep with (d' := f 0) by (rewrite map_length, seq_length; exact H). rewrite map_nth, seq_nth by exact H. reflexivity. Qed.

Lemma dotb_seq n r v : length r = n -> length v = n -> dotb r v = xsum (map (fun i => nth i r false && nth i v false) (seq 0 n)).
Proof.
  intros Hr Hv. unfold dotb. change (fold_right xorb false) with xsum. f_equal. apply (nth_ext _ _ false false).
  - rewrite map2_length, map_length, seq_length by congruence. exact Hr.
  - intros i Hi. rewrite map2_length in Hi by congruence. rewrite (map2_nth andb r v i false false) by congruence.
    rewrite nth_map_seq by lia. reflexivity.
Qed.
Lemma parity_matmul n r b x : length r = n -> length b = n ->
  parity n (map (fun j => dotb r (column b j)) (seq 0 n)) x = parity n r (fun i => parity n (nth i b []) x).
Proof.
  intros Hr Hb. unfold parity. change (fold_right xorb false) with xsum.
  transitivity (xsum (map (fun j => xsum (map (fun i => x j && (nth i r false && nth j (nth i b []) false)) (seq 0 n))) (seq 0 n))).
  - apply xsum_ext. intros j Hj. apply in_seq in Hj. rewrite nth_map_seq by lia. rewrite (dotb_seq n) by (unfold column; rewrite ?map_length; assumption).
    rewrite xsum_map_and, andb_comm. f_equal. apply xsum_ext. intros i Hi. apply in_seq in Hi. f_equal. unfold column.
    rewrite nth_indep with (d' := nth j [] false) by (rewrite map_length; lia). rewrite (map_nth (fun r => nth j r false)). reflexivity.
  - rewrite xsum_swap. apply xsum_ext. intros i Hi. rewrite <- xsum_map_and. apply xsum_ext. intros j Hj.
    destruct (x j), (nth i r false), (nth j (nth i b []) false); reflexivity.
Qed.
Lemma parity_vec n r v : length r = n -> length v = n -> dotb r v = parity n r (fun i => nth i v false).
Proof. intros Hr Hv. rewrite (dotb_seq n) by assumption. reflexivity. Qed.
Lemma parity_xorp n r x y : parity n r (fun i => xorb (x i) (y i)) = xorb (parity n r x) (parity n r y).
Proof.
  unfold parity. change (fold_right xorb false) with xsum. rewrite <- xsum_map_xor. apply xsum_ext. intros j _.
  destruct (nth j r false), (x j), (y j); reflexivity.
Qed.

(** ** The product *)
Lemma rows_len n e : wf_cdi n e -> forall i, i < n -> length (nth i (dlin e) []) = n.
Proof. intros W i Hi. pose proof (wd_rows n e W) as R. rewrite Forall_forall in R. apply R, nth_In. rewrite (wd_lin n e W). exact Hi. Qed.

Lemma image_ext n e x y : wf_cdi n e -> same n x y -> forall i, image e x i = image e y i.
Proof. intros W H i. unfold image. rewrite (wd_n n e W), (parity_ext n _ x y H). reflexivity. Qed.

Lemma monomial_ext t x y : (forall j, In j t -> x j = y j) -> monomial t x = monomial t y.
Proof. induction t as [|j t IH]; intros H; [reflexivity|]. cbn [monomial]. rewrite (H j) by (left; reflexivity). rewrite IH; [reflexivity|]. intros i Hi. apply H. right; exact Hi. Qed.
Lemma value_ext n p x y : wf_poly n p -> same n x y -> value p x = value p y.
Proof.
  intros W H. rewrite !(value_tm n) by assumption. apply zsum_map_ext. intros t Ht. apply terms_In in Ht as (_ & _ & Hr).
  rewrite (monomial_ext t x y); [reflexivity|]. intros j Hj. apply H, Hr, Hj.
Qed.

Lemma mapM_new_var n lin sh : forall l, (forall i, In i l -> i < n) -> exists vs, mapM (fun i => new_var n (nth i lin []) (nth i sh false)) l = Ok vs /\
  length vs = length l /\ (forall v, In v vs -> wf_poly n v) /\
  forall x j, j < length l -> eq8 (value (nth j vs (zeros n)) x) (bit (aff n (nth (nth j l 0) lin []) (nth (nth j l 0) sh false) x)).
Proof.
  induction l as [|i l IH]; intros H.
  - exists []. split; [reflexivity|]. split; [reflexivity|]. split; [intros v [] | cbn; intros; lia].
  - cbn [mapM]. destruct (new_var_spec n (nth i lin []) (nth i sh false)) as (p & -> & W & _ & V). cbn [bind].
    destruct IH as (vs & -> & Hl & Hw & Hv); [intros j Hj; apply H; right; exact Hj|]. cbn [bind].
    exists (p :: vs). split; [reflexivity|]. split; [cbn; congruence|]. split; [intros v [<-|Hin]; auto|].
    intros x [|j] Hj; cbn [nth]; [apply V | apply Hv; cbn in Hj; lia].
Qed.

Section Product.
Variable set_list : list nat -> list nat -> list nat.
Variable n : nat.
Hypothesis Hset : iterates_sorted n set_list.

(** Substituting an affine map in a special polynomial is exact everywhere. *)
Lemma evaluate_affine p lin sh : wf_poly n p -> special p -> (forall i, i < n -> length (nth i lin []) = n) ->
  exists q, (do vars <- mapM (fun i => new_var n (nth i lin []) (nth i sh false)) (seq 0 n); evaluate set_list p vars) = Ok q /\
    wf_poly n q /\ special q /\ forall x, eq8 (value q x) (value p (fun i => aff n (nth i lin []) (nth i sh false) x)).
Proof.
  intros W S Hl. destruct (mapM_new_var n lin sh (seq 0 n)) as (vs & -> & Hlen & Hw & Hv); [intros i Hi; apply in_seq in Hi; lia|].
  cbn [bind]. rewrite seq_length in *.
  destruct (evaluate_spec set_list n Hset p vs (fun x i => aff n (nth i lin []) (nth i sh false) x) W Hlen Hw) as (q & E & Wq & Vq).
  { intros x j Hj. specialize (Hv x j Hj). rewrite seq_nth in Hv by exact Hj. exact Hv. }
  exists q. split; [exact E|]. split; [exact Wq|].
  destruct (rep_subst n p lin sh W S Hl) as (q' & Wq' & Sq' & Vq').
  assert (q = q') as ->; [|split; assumption].
  apply (unique n); [exact Wq | exact Wq'|]. intros x Hx. rewrite (Vq x Hx), (Vq' x). reflexivity.
Qed.

Lemma cmul_spec a b : wf_cdi n a -> wf_cdi n b -> exists c, cmul set_list a b = Ok c /\ wf_cdi n c /\
  forall x, eq8 (phase_at c x) (phase_at b x + phase_at a (image b x)) /\ same n (image c x) (image a (image b x)).
Proof.
  intros Wa Wb. unfold cmul. rewrite (wd_n n a Wa), (wd_n n b Wb), Nat.eqb_refl.
  destruct (evaluate_affine (dpoly a) (dlin b) (dshift b) (wd_poly n a Wa) (wd_special n a Wa) (rows_len n b Wb)) as (q & E & Wq & Sq & Vq).
  destruct (mapM _ (seq 0 n)) as [vars|er]; [|discriminate]. cbn [bind] in E |- *. rewrite E. cbn [bind].
  destruct (padd_spec n (dpoly b) q (wd_poly n b Wb) Wq) as (p & Ep & Wp & _ & Vp). rewrite Ep. cbn [bind].
  eexists. split; [reflexivity|]. set (c := {| dn := n |}).
  assert (Him : forall x, same n (image c x) (image a (image b x))).
  { intros x i Hi. unfold image at 1. cbn [dn dlin dshift c]. unfold z2matmul.
    rewrite nth_indep with (d' := (fun r => map (fun j => dotb r (column (dlin b) j)) (seq 0 n)) []) by (rewrite map_length, (wd_lin n a Wa); exact Hi).
    rewrite (map_nth (fun r => map (fun j => dotb r (column (dlin b) j)) (seq 0 n))).
    rewrite parity_matmul by (apply (rows_len n a Wa), Hi || apply (wd_lin n b Wb)).
    rewrite (map2_nth xorb _ _ i false false) by (unfold z2matvec; rewrite ?map_length, ?(wd_lin n a Wa), ?(wd_shift n a Wa); auto).
    unfold z2matvec. rewrite nth_indep with (d' := (fun r => dotb r (dshift b)) []) by (rewrite map_length, (wd_lin n a Wa); exact Hi).
    rewrite (map_nth (fun r => dotb r (dshift b))). rewrite (parity_vec n) by (apply (rows_len n a Wa), Hi || apply (wd_shift n b Wb)).
    unfold image. rewrite (wd_n n a Wa), (wd_n n b Wb), parity_xorp. rewrite xorb_assoc. reflexivity. }
  split.
  - constructor; cbn [dn dpoly dlin dshift c].
    + reflexivity.
    + apply (wd_pos n a Wa).
    + exact Wp.
    + apply (padd_special n (dpoly b) q p); [apply (wd_poly n b Wb) | exact Wq | exact Ep | apply (wd_special n b Wb) | exact Sq].
    + unfold z2matmul. rewrite map_length. apply (wd_lin n a Wa).
    + apply Forall_forall. intros r Hr. apply in_map_iff in Hr as (r' & <- & _). rewrite map_length, seq_length. reflexivity.
    + rewrite map2_length; unfold z2matvec; rewrite map_length, ?(wd_lin n a Wa), ?(wd_shift n a Wa); reflexivity.
    + intros x y H. apply (wd_inj n b Wb), (wd_inj n a Wa). intros i Hi. rewrite <- (Him x i Hi), <- (Him y i Hi). apply H, Hi.
  - intros x. split; [|apply Him]. unfold phase_at. cbn [dpoly c]. rewrite (Vp x), (Vq x).
    apply eq8_k with 0%Z. unfold image. rewrite (wd_n n b Wb). unfold aff. ring.
Qed.
End Product.
