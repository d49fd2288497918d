(** The printed forms of CNOT-dihedral elements. *)
From Coq Require Import QArith.
From Verif Require Import Base ResultFacts PyStr DihedralModel DihedralSpec DihedralPolyProofs DihedralValueProofs DihedralGroupProofs DihedralDecompProofs DihedralAlgebraProofs DihedralSetProofs RBSeqDihProofs DihedralMatProofs RepCodeModel DihStrModel DihStrSpec.
Local Open Scope string_scope. Local Open Scope list_scope. Local Open Scope nat_scope.

(** ** Keys *)
(** What may follow an item. *)
Definition ends (r : pystr) : Prop := match r with c :: _ => In c (str ",)'") | [] => False end.
(** A printer is prefix-free: an item and what follows it can be told apart, and no item
    begins like an end. *)
Definition pf {A} (P : A -> pystr) : Prop :=
  (forall a b r r', ends r -> ends r' -> P a ++ r = P b ++ r' -> a = b /\ r = r') /\ forall a, exists c s, P a = c :: s /\ ~ In c (str ",) ").
Fixpoint more {A} (P : A -> pystr) (l : list A) : pystr :=
  match l with [] => str ")" | a :: l' => str ", " ++ P a ++ more P l' end.
Lemma join_more {A} (P : A -> pystr) l : forall a, join (str ", ") (map P (a :: l)) ++ str ")" = P a ++ more P l.
Proof.
  induction l as [|b l IH]; intros a; [reflexivity|]. change (map P (a :: b :: l)) with (P a :: map P (b :: l)). cbn [join]. destruct (map P (b :: l)) as [|y l0] eqn:E; [discriminate|]. rewrite <- E. rewrite <- !app_assoc, IH. reflexivity.
Qed.
Lemma more_ends {A} (P : A -> pystr) l r : ends (more P l ++ r).
Proof. destruct l; cbn; auto. Qed.
Lemma more_pf {A} (P : A -> pystr) : pf P -> forall l l' r r', more P l ++ r = more P l' ++ r' -> l = l' /\ r = r'.
Proof.
  intros [Hp _]. induction l as [|a l IH]; intros [|b l'] r r' E; cbn [more] in E; cbn [app str list_ascii_of_string] in E.
  - injection E as E. auto.
  - discriminate.
  - discriminate.
  - injection E as E. rewrite <- !app_assoc in E. apply Hp in E; [|apply more_ends|apply more_ends]. destruct E as [-> E]. destruct (IH l' r r' E) as [-> ->]. auto.
Qed.
Lemma tuple_0 : tuple_str [] = str "()". Proof. reflexivity. Qed.
Lemma tuple_1 {A} (P : A -> pystr) a : tuple_str (map P [a]) = str "(" ++ P a ++ str ",)".
Proof. unfold tuple_str. cbn [map]. rewrite <- app_assoc. reflexivity. Qed.
Lemma tuple_2 {A} (P : A -> pystr) a b l : tuple_str (map P (a :: b :: l)) = str "(" ++ P a ++ more P (b :: l).
Proof. unfold tuple_str. rewrite <- join_more. reflexivity. Qed.
Lemma tuple_pf {A} (P : A -> pystr) : pf P -> pf (fun l => tuple_str (map P l)).
Proof.
  intros H. pose proof (more_pf P H) as Hm. destruct H as [Hp Hh]. split.
  - intros l l' r r' Hr Hr' E.
    assert (C : forall a l, exists t, tuple_str (map P (a :: l)) = "("%char :: P a ++ t /\ (t = str ",)" /\ l = [] \/ t = more P l /\ l <> [])).
    { intros a [|b l0]; [exists (str ",)"); rewrite tuple_1; auto|]. exists (more P (b :: l0)). rewrite tuple_2. split; [reflexivity|]. right. split; [reflexivity|discriminate]. }
    destruct l as [|a l], l' as [|b l'].
    + cbn in E. injection E as E. auto.
    + destruct (C b l') as (t & Et & _). rewrite Et in E. cbn in E. injection E as E. destruct (Hh b) as (c & s & Eb & Hc). rewrite Eb in E. cbn in E. injection E as E _. exfalso. apply Hc. rewrite <- E. cbn. auto.
    + destruct (C a l) as (t & Et & _). rewrite Et in E. cbn in E. injection E as E. destruct (Hh a) as (c & s & Eb & Hc). rewrite Eb in E. cbn in E. injection E as E _. exfalso. apply Hc. rewrite E. cbn. auto.
    + destruct (C a l) as (t & Et & Ht), (C b l') as (t' & Et' & Ht'). rewrite Et, Et' in E. cbn [app] in E. injection E as E. rewrite <- !app_assoc in E.
      assert (Ends : forall t l (r : pystr), t = str ",)" /\ l = [] \/ t = more P l /\ l <> [] -> ends (t ++ r)) by (intros t0 l0 r0 [[-> _]|[-> _]]; [cbn; auto|apply more_ends]).
      apply Hp in E; [|apply (Ends t l r Ht)|apply (Ends t' l' r' Ht')]. destruct E as [-> E].
      destruct Ht as [[-> ->]|[-> Hl]], Ht' as [[-> ->]|[-> Hl']].
      * apply app_inv_head in E. auto.
      * destruct l' as [|y l']; [contradiction|]. discriminate.
      * destruct l as [|y l]; [contradiction|]. discriminate.
      * destruct (Hm l l' r r' E) as [-> ->]. auto.
  - intros l. unfold tuple_str. eexists. eexists. split; [reflexivity|]. cbn. intuition discriminate.
Qed.
Lemma first_end (s s' r r' : pystr) : (forall c, In c s -> ~ In c (str ",)'")) -> (forall c, In c s' -> ~ In c (str ",)'")) -> ends r -> ends r' -> s ++ r = s' ++ r' -> s = s' /\ r = r'.
Proof.
  intros Hs Hs' Hr Hr'. revert s' Hs'. induction s as [|a s IH]; intros [|b s'] Hs' E; cbn [app] in E.
  - auto.
  - subst r. exfalso. exact (Hs' b (or_introl eq_refl) Hr).
  - subst r'. exfalso. exact (Hs a (or_introl eq_refl) Hr').
  - injection E as -> E. destruct (IH (fun c Hc => Hs c (or_intror Hc)) s' (fun c Hc => Hs' c (or_intror Hc)) E) as [-> ->]. auto.
Qed.
Lemma zdec_safe z c : In c (zdec z) -> ~ In c (str ",)' ").
Proof.
  intros H [E|[E|[E|[E|[]]]]]; subst c; revert H; apply zdec_no; try reflexivity; discriminate.
Qed.
Lemma zdec_pf : pf zdec.
Proof.
  split.
  - intros a b r r' Hr Hr' E. apply first_end in E; auto.
    + destruct E as [E ->]. apply zdec_inj in E. auto.
    + intros c Hc K. apply (zdec_safe a c Hc). cbn in *. tauto.
    + intros c Hc K. apply (zdec_safe b c Hc). cbn in *. tauto.
  - intros a. assert (N : zdec a <> []) by (destruct a; cbn; try discriminate; apply dec_nonempty). destruct (zdec a) as [|c s] eqn:E; [contradiction|]. exists c, s. split; [reflexivity|]. intros K. apply (zdec_safe a c); [rewrite E; left; reflexivity|]. cbn in *. tauto.
Qed.
Lemma bit_pf : pf bit_str.
Proof.
  split.
  - intros [] [] r r' _ _ E; cbn in E; try discriminate; injection E as E; auto.
  - intros []; eexists; eexists; (split; [reflexivity|]); cbn; intuition discriminate.
Qed.
Lemma poly_key_eq p : poly_key p = str "(" ++ zdec (w0 p) ++ str ", " ++ tuple_str (map zdec (w1 p)) ++ str ", " ++ tuple_str (map zdec (w2 p)) ++ str ", " ++ tuple_str (map zdec (w3 p)) ++ str ")".
Proof. unfold poly_key, tuple_str at 1. cbn [join]. rewrite <- !app_assoc. reflexivity. Qed.
Lemma cons1 {A} (a : A) x y : a :: x = a :: y -> x = y. Proof. intros E. congruence. Qed.
Lemma cons2 {A} (a b : A) x y : a :: b :: x = a :: b :: y -> x = y. Proof. intros E. congruence. Qed.
Lemma poly_key_tail p q r r' : ends r -> ends r' -> poly_key p ++ r = poly_key q ++ r' -> (w0 p = w0 q /\ w1 p = w1 q /\ w2 p = w2 q /\ w3 p = w3 q) /\ r = r'.
Proof.
  intros Hr Hr' E. rewrite !poly_key_eq, <- !app_assoc in E. cbn [app str list_ascii_of_string] in E. apply cons1 in E.
  destruct zdec_pf as [Hz _]. destruct (tuple_pf zdec zdec_pf) as [Ht _]. cbn beta in Ht.
  apply Hz in E; [|cbn; auto|cbn; auto]. destruct E as [E0 E]. apply cons2 in E. apply Ht in E; [|cbn; auto|cbn; auto]. destruct E as [E1 E]. apply cons2 in E. apply Ht in E; [|cbn; auto|cbn; auto]. destruct E as [E2 E]. apply cons2 in E. apply Ht in E; [|cbn; auto|cbn; auto]. destruct E as [E3 E]. apply cons1 in E. auto.
Qed.
Lemma poly_key_inj p q : poly_key p = poly_key q -> w0 p = w0 q /\ w1 p = w1 q /\ w2 p = w2 q /\ w3 p = w3 q.
Proof. intros E. apply (poly_key_tail p q (str ",") (str ",")); [cbn; auto|cbn; auto|rewrite E; reflexivity]. Qed.
Lemma cdi_key_inj a b : cdi_key a = cdi_key b -> (w0 (dpoly a) = w0 (dpoly b) /\ w1 (dpoly a) = w1 (dpoly b) /\ w2 (dpoly a) = w2 (dpoly b) /\ w3 (dpoly a) = w3 (dpoly b)) /\ dlin a = dlin b /\ dshift a = dshift b.
Proof.
  assert (K : forall e, cdi_key e = str "('" ++ poly_key (dpoly e) ++ str "', " ++ tuple_str (map (fun row => tuple_str (map bit_str row)) (dlin e)) ++ str ", " ++ tuple_str (map bit_str (dshift e)) ++ str ")").
  { intros e. unfold cdi_key, tuple_str at 1. cbn [join]. rewrite <- !app_assoc. reflexivity. }
  rewrite !K. intros E. cbn [app str list_ascii_of_string] in E. apply cons2 in E. apply poly_key_tail in E; [|cbn; tauto|cbn; tauto]. destruct E as [Ep E]. apply cons1, cons2 in E.
  destruct (tuple_pf _ (tuple_pf _ bit_pf)) as [Ht _]. destruct (tuple_pf _ bit_pf) as [Hb _]. cbn beta in Ht, Hb.
  apply Ht in E; [|cbn; auto|cbn; auto]. destruct E as [El E]. apply cons2 in E. apply Hb in E; [|cbn; auto|cbn; auto]. destruct E as [Es _]. auto.
Qed.

(** ** Splitting and joining *)
Lemma split_app c a s : ~ In c a -> forall cur, split_go c cur (a ++ c :: s) = (rev cur ++ a) :: split_go c [] s.
Proof.
  induction a as [|x a IH]; intros H cur; cbn [app split_go].
  - rewrite eqb_refl, app_nil_r. reflexivity.
  - destruct (eqb_spec x c) as [->|_]; [exfalso; apply H; left; reflexivity|]. rewrite IH by (intros K; apply H; right; exact K). cbn [rev]. rewrite <- app_assoc. reflexivity.
Qed.
Lemma split_join1 c l : forall a, (forall s, In s (a :: l) -> ~ In c s) -> split c (join [c] (a :: l)) = a :: l.
Proof.
  induction l as [|b l IH]; intros a H.
  - cbn [join]. unfold split. rewrite split_go_plain by (apply H; left; reflexivity). reflexivity.
  - change (join [c] (a :: b :: l)) with (a ++ c :: join [c] (b :: l)). unfold split. rewrite split_app by (apply H; left; reflexivity). cbn [rev app]. f_equal. apply IH. intros s Hs. apply H. right. exact Hs.
Qed.
Lemma split_join_ne c l : l <> [] -> (forall s, In s l -> ~ In c s) -> split c (join [c] l) = l.
Proof. destruct l as [|a l]; [contradiction|]. intros _ H. apply split_join1, H. Qed.
Lemma join_concat sep l : forall a, join sep (a :: l) = a ++ concat (map (fun s => sep ++ s) l).
Proof. induction l as [|b l IH]; intros a; [cbn; rewrite app_nil_r; reflexivity|]. change (join sep (a :: b :: l)) with (a ++ sep ++ join sep (b :: l)). rewrite IH. cbn [map concat]. rewrite <- !app_assoc. reflexivity. Qed.
Lemma join_app1 sep l b : l <> [] -> join sep (l ++ [b]) = join sep l ++ sep ++ b.
Proof. intros H. destruct l as [|a l]; [contradiction|]. cbn [app]. rewrite !join_concat, map_app, concat_app. cbn [map concat]. rewrite app_nil_r, <- !app_assoc. reflexivity. Qed.
Lemma without_app cs s t : without cs (s ++ t) = without cs s ++ without cs t. Proof. apply filter_app. Qed.
Lemma without_none cs s : (forall c, In c s -> ~ In c cs) -> without cs s = s.
Proof.
  induction s as [|a s IH]; intros H; [reflexivity|]. cbn. destruct (mem a cs) eqn:E; [exfalso; apply (H a (or_introl eq_refl)), mem_In, E|]. cbn [negb]. f_equal. apply IH. intros c Hc. apply H. right. exact Hc.
Qed.
Lemma without_join cs sep l : without cs (join sep l) = join (without cs sep) (map (without cs) l).
Proof. destruct l as [|a l]; [reflexivity|]. cbn [map]. rewrite !join_concat, without_app. f_equal. induction l as [|b l IH]; [reflexivity|]. cbn [map concat]. rewrite !without_app, IH. reflexivity. Qed.

(** Characters of sums. *)
Definition inner (c : ascii) : bool := is_dec_digit c || mem c (str "-*x_").
Definition plain (s : pystr) : Prop := forall c, In c s -> inner c = true.
Lemma plain_app s t : plain s -> plain t -> plain (s ++ t).
Proof. intros Hs Ht c Hc. apply in_app_iff in Hc as [Hc|Hc]; auto. Qed.
Lemma plain_dec i : plain (dec i).
Proof. intros c Hc. pose proof (dec_digits i) as H. rewrite Forall_forall in H. unfold inner. rewrite (H c Hc). reflexivity. Qed.
Lemma plain_zdec z : plain (zdec z).
Proof. destruct z; unfold zdec; try apply plain_dec. intros c [<-|Hc]; [reflexivity|apply (plain_dec _ c Hc)]. Qed.
Lemma plain_join sep l : plain sep -> (forall s, In s l -> plain s) -> plain (join sep l).
Proof.
  intros Hsep H. destruct l as [|a l]; [intros c []|]. rewrite join_concat. apply plain_app; [apply H; left; reflexivity|]. intros c Hc. apply in_concat in Hc as (t & Ht & Hc). apply in_map_iff in Ht as (s & <- & Hs). apply (plain_app sep s Hsep (H s (or_intror Hs))), Hc.
Qed.
Lemma plain_no c s : plain s -> inner c = false -> ~ In c s.
Proof. intros H E K. rewrite (H c K) in E. discriminate. Qed.
Definition var (i : nat) : pystr := str "x_" ++ dec i.
Lemma plain_var i : plain (var i). Proof. apply plain_app; [|apply plain_dec]. intros c [<-|[<-|[]]]; reflexivity. Qed.
Lemma factor_var x i : factor_value x (var i) = Ok (bit (x i)).
Proof. unfold factor_value, var. cbn [app str list_ascii_of_string]. rewrite undec_dec. cbn. rewrite Nat2Z.id. reflexivity. Qed.
Lemma factor_num x z : factor_value x (zdec z) = Ok z.
Proof.
  pose proof (zdec_no "x"%char z eq_refl ltac:(discriminate)) as H. transitivity (undec (zdec z)); [|apply undec_zdec]. unfold factor_value. destruct (zdec z) as [|c s]; [reflexivity|]. destruct (Ascii.eqb_spec c "x"%char) as [->|N]; [exfalso; apply H; left; reflexivity|].
  destruct c as [[] [] [] [] [] [] [] []]; try reflexivity. contradiction.
Qed.
(** ** Products *)
Definition factors (v : Z) (I : list nat) : list pystr := (if (v =? 1)%Z then [] else [zdec v]) ++ map var I.
Lemma term_str_eq v I : I <> [] -> term_str v I = str " + " ++ join (str "*") (factors v I).
Proof.
  intros H. unfold term_str, factors. f_equal. fold var. change (fun i => str "x_" ++ dec i) with var. destruct (v =? 1)%Z; [reflexivity|]. destruct I as [|i I]; [contradiction|]. cbn [map app]. rewrite !join_concat. cbn [map concat]. rewrite <- !app_assoc. reflexivity.
Qed.
Lemma mapM_vars x I : mapM (factor_value x) (map var I) = Ok (map (fun i => bit (x i)) I).
Proof. induction I as [|i I IH]; [reflexivity|]. cbn [map mapM]. rewrite factor_var, IH. reflexivity. Qed.
Lemma monomial_fold x I : fold_right Z.mul 1%Z (map (fun i => bit (x i)) I) = monomial I x.
Proof. induction I as [|i I IH]; [reflexivity|]. cbn. rewrite IH. reflexivity. Qed.
Lemma zdec_star z : ~ In "*"%char (zdec z). Proof. apply zdec_no; [reflexivity|discriminate]. Qed.
Lemma var_star i : ~ In "*"%char (var i).
Proof. intros H. unfold var in H. apply in_app_iff in H as [[E|[E|[]]]|H]; try discriminate. revert H. apply dec_not_digit. reflexivity. Qed.
Lemma product_factors x v I : I <> [] -> product_value x (join (str "*") (factors v I)) = Ok (v * monomial I x)%Z.
Proof.
  intros H. unfold product_value. change (str "*") with ["*"%char]. rewrite split_join_ne.
  - unfold factors. destruct (Z.eqb_spec v 1) as [->|_]; cbn [app].
    + rewrite mapM_vars. cbn [bind]. rewrite monomial_fold. f_equal. ring.
    + cbn [mapM]. rewrite factor_num, mapM_vars. cbn [bind fold_right]. rewrite monomial_fold. reflexivity.
  - unfold factors. destruct I; [contradiction|]. destruct (v =? 1)%Z; discriminate.
  - intros s Hs. unfold factors in Hs. apply in_app_iff in Hs as [Hs|Hs].
    + destruct (v =? 1)%Z; [destruct Hs|]. destruct Hs as [<-|[]]. apply zdec_star.
    + apply in_map_iff in Hs as (i & <- & _). apply var_star.
Qed.
Lemma product_num x z : product_value x (zdec z) = Ok z.
Proof. unfold product_value, split. rewrite split_go_plain by apply zdec_star. cbn [rev app mapM]. rewrite factor_num. cbn [bind fold_right]. f_equal. ring. Qed.
Lemma product_var x i : product_value x (var i) = Ok (bit (x i)).
Proof. unfold product_value, split. rewrite split_go_plain by apply var_star. cbn [rev app mapM]. rewrite factor_var. cbn [bind fold_right]. f_equal. ring. Qed.
Lemma plain_factors v I : plain (join (str "*") (factors v I)).
Proof.
  apply plain_join; [intros c [<-|[]]; reflexivity|]. intros s Hs. unfold factors in Hs. apply in_app_iff in Hs as [Hs|Hs].
  - destruct (v =? 1)%Z; [destruct Hs|]. destruct Hs as [<-|[]]. apply plain_zdec.
  - apply in_map_iff in Hs as (i & <- & _). apply plain_var.
Qed.
(** ** Sums *)
Lemma without_plain s : plain s -> without [" "%char] s = s.
Proof. intros H. apply without_none. intros c Hc [<-|[]]. exact (plain_no " "%char s H eq_refl Hc). Qed.
Lemma sum_items x l : l <> [] -> (forall s, In s l -> plain s) -> sum_value x (join (str " + ") l) = do vs <- mapM (product_value x) l; Ok (zsum vs).
Proof.
  intros Hl H. unfold sum_value. rewrite without_join. change (without [" "%char] (str " + ")) with ["+"%char].
  replace (map (without [" "%char]) l) with l. 2:{ symmetry. rewrite <- (map_id l) at 2. apply map_ext_in. intros s Hs. apply without_plain, H, Hs. }
  rewrite split_join_ne; [reflexivity|exact Hl|]. intros s Hs. apply (plain_no _ _ (H s Hs)). reflexivity.
Qed.
(** ** Polynomials *)
Definition nonconst (n : nat) : list (list nat) := map (fun i => [i]) (seq 0 n) ++ pairs n ++ triples n.
Lemma nonconst_ne n t : In t (nonconst n) -> t <> [] /\ In t (terms n).
Proof.
  intros H. split; [|rewrite terms_split; right; exact H]. unfold nonconst in H. rewrite !in_app_iff in H. destruct H as [H|[H|H]].
  - apply in_map_iff in H as (i & <- & _). discriminate.
  - unfold pairs in H. apply in_flat_map in H as (i & _ & H). apply in_map_iff in H as (j & <- & _). discriminate.
  - unfold triples in H. apply in_flat_map in H as (i & _ & H). apply in_flat_map in H as (j & _ & H). apply in_map_iff in H as (k & <- & _). discriminate.
Qed.
Definition shown (p : poly) (l : list (list nat)) : list pystr := map (fun t => join (str "*") (factors (tm p t) t)) (filter (fun t => negb (tm p t =? 0)%Z) l).
Lemma add_terms n p : wf_poly n p -> forall l out, (forall t, In t l -> In t (nonconst n)) -> foldM (add_term p) l out = Ok (out ++ concat (map (fun s => str " + " ++ s) (shown p l))).
Proof.
  intros W. induction l as [|t l IH]; intros out H; cbn [foldM]; [cbn; rewrite app_nil_r; reflexivity|].
  destruct (nonconst_ne n t (H t (or_introl eq_refl))) as [Hne Ht]. unfold add_term at 1. rewrite (proj1 (get_term_tm n p t W Ht)). cbn [bind]. rewrite IH by (intros; apply H; right; assumption). f_equal. unfold shown. cbn [filter]. destruct (tm p t =? 0)%Z; cbn [negb]; [reflexivity|]. cbn [map concat]. rewrite (term_str_eq _ _ Hne), <- !app_assoc. reflexivity.
Qed.
Lemma flat_map_drop {A B} (f : A -> list B) l l' : (forall a, In a l' -> f a = []) -> flat_map f (l ++ l') = flat_map f l.
Proof. intros H. rewrite flat_map_app. replace (flat_map f l') with (@nil B); [apply app_nil_r|]. induction l' as [|a l' IH]; [reflexivity|]. cbn. rewrite (H a (or_introl eq_refl)), <- IH; [reflexivity|]. intros; apply H; right; assumption. Qed.
Lemma seq_cut a k m : k <= m -> seq a m = seq a k ++ seq (a + k) (m - k).
Proof. intros H. replace m with (k + (m - k)) at 1 by lia. apply seq_app. Qed.
Lemma printed_pairs n : flat_map (fun i => map (fun j => [i; j]) (seq (i + 1) (n - (i + 1)))) (seq 0 (n - 1)) = pairs n.
Proof.
  unfold pairs. rewrite (seq_cut 0 (n - 1) n) by lia. rewrite flat_map_drop; [reflexivity|]. intros i Hi. apply in_seq in Hi. replace (n - (i + 1)) with 0 by lia. reflexivity.
Qed.
Lemma printed_triples n : flat_map (fun i => flat_map (fun j => map (fun k => [i; j; k]) (seq (j + 1) (n - (j + 1)))) (seq (i + 1) (n - 1 - (i + 1)))) (seq 0 (n - 2)) = triples n.
Proof.
  assert (I : forall i, flat_map (fun j => map (fun k => [i; j; k]) (seq (j + 1) (n - (j + 1)))) (seq (i + 1) (n - (i + 1))) = flat_map (fun j => map (fun k => [i; j; k]) (seq (j + 1) (n - (j + 1)))) (seq (i + 1) (n - 1 - (i + 1)))).
  { intros i. rewrite (seq_cut (i + 1) (n - 1 - (i + 1)) (n - (i + 1))) by lia. apply flat_map_drop. intros j Hj. apply in_seq in Hj. replace (n - (j + 1)) with 0 by lia. reflexivity. }
  unfold triples. rewrite (flat_map_ext _ _ I), (seq_cut 0 (n - 2) n) by lia. rewrite flat_map_drop; [reflexivity|]. intros i Hi. apply in_seq in Hi. replace (n - 1 - (i + 1)) with 0 by lia. reflexivity.
Qed.
Lemma poly_str_eq n p : wf_poly n p -> poly_str p = Ok (join (str " + ") (zdec (w0 p) :: shown p (nonconst n))).
Proof.
  intros W. unfold poly_str. rewrite (wf_n n p W). rewrite printed_pairs, printed_triples.
  rewrite (add_terms n p W) by (intros t Ht; unfold nonconst; rewrite !in_app_iff; auto). cbn [bind].
  rewrite (add_terms n p W) by (intros t Ht; unfold nonconst; rewrite !in_app_iff; auto). cbn [bind].
  rewrite (add_terms n p W) by (intros t Ht; unfold nonconst; rewrite !in_app_iff; auto). f_equal.
  rewrite join_concat, <- !app_assoc. f_equal. unfold nonconst, shown. rewrite !filter_app, !map_app, !concat_app. reflexivity.
Qed.
Lemma plain_shown p l s : In s (shown p l) -> plain s.
Proof. intros H. unfold shown in H. apply in_map_iff in H as (t & <- & _). apply plain_factors. Qed.
Lemma mapM_shown x p l : (forall t, In t l -> t <> []) -> mapM (product_value x) (shown p l) = Ok (map (fun t => (tm p t * monomial t x)%Z) (filter (fun t => negb (tm p t =? 0)%Z) l)).
Proof.
  intros H. unfold shown. induction l as [|t l IH]; [reflexivity|]. cbn [filter]. destruct (negb (tm p t =? 0)%Z); [|apply IH; intros; apply H; right; assumption]. cbn [map mapM]. rewrite product_factors by (apply H; left; reflexivity). rewrite IH by (intros; apply H; right; assumption). reflexivity.
Qed.
Lemma poly_str_value n p : wf_poly n p -> exists s, poly_str p = Ok s /\ forall x, sum_value x s = Ok (value p x).
Proof.
  intros W. eexists. split; [apply (poly_str_eq n p W)|]. intros x. rewrite sum_items.
  - cbn [mapM]. rewrite product_num, mapM_shown by (intros t Ht; apply (nonconst_ne n t Ht)). cbn [bind zsum]. f_equal. rewrite (value_tm n p x W), terms_split. fold (nonconst n). cbn [map zsum]. rewrite tm_0. cbn [monomial]. rewrite Z.mul_1_r. f_equal.
    induction (nonconst n) as [|t l IH]; [reflexivity|]. cbn [filter map zsum]. destruct (Z.eqb_spec (tm p t) 0) as [E|E]; cbn [negb map zsum]; rewrite IH; [rewrite E; ring|reflexivity].
  - discriminate.
  - intros s [<-|Hs]; [apply plain_zdec|apply (plain_shown _ _ _ Hs)].
Qed.
Lemma poly_str_inj n p q s : wf_poly n p -> wf_poly n q -> poly_str p = Ok s -> poly_str q = Ok s -> p = q.
Proof.
  intros Wp Wq Ep Eq. destruct (poly_str_value n p Wp) as (s1 & E1 & V1), (poly_str_value n q Wq) as (s2 & E2 & V2). assert (s1 = s) by congruence. assert (s2 = s) by congruence. subst.
  apply (unique n p q Wp Wq). intros x _. specialize (V1 x). specialize (V2 x). rewrite V1 in V2. assert (V : value p x = value q x) by congruence. rewrite V. reflexivity.
Qed.

(** ** Elements *)
Definition ones (row : list bool) (l : list nat) : list nat := filter (fun j => nth j row false) l.
Definition row_items (row : list bool) (s : bool) (n : nat) : list pystr := map var (ones row (seq 0 n)) ++ if s then [str "1"] else [].
Lemma write_cols row l : (forall j, In j l -> j < length row) -> forall out,
  (foldM (write_col row) l (out, true) = Ok (out ++ concat (map (fun s => str " + " ++ s) (map var (ones row l))), true)) /\
  (ones row l <> [] -> foldM (write_col row) l (out, false) = Ok (out ++ join (str " + ") (map var (ones row l)), true)).
Proof.
  induction l as [|j l IH]; intros H out; (split; [|intros Hne]).
  - cbn. rewrite app_nil_r. reflexivity.
  - contradiction.
  - cbn [foldM]. unfold write_col at 1. rewrite (index_e_ok row j false) by (apply H; left; reflexivity). cbn [bind]. destruct (nth j row false) eqn:E; rewrite (proj1 (IH (fun j' Hj => H j' (or_intror Hj)) _)); unfold ones; cbn [filter]; rewrite E; [|reflexivity]. cbn [map concat]. unfold var at 2. rewrite <- !app_assoc. reflexivity.
  - cbn [foldM]. unfold write_col at 1. rewrite (index_e_ok row j false) by (apply H; left; reflexivity). cbn [bind]. unfold ones in *. cbn [filter] in *. destruct (nth j row false) eqn:E.
    + rewrite (proj1 (IH (fun j' Hj => H j' (or_intror Hj)) _)). cbn [map]. rewrite join_concat. unfold var at 2. rewrite <- !app_assoc. reflexivity.
    + apply (proj2 (IH (fun j' Hj => H j' (or_intror Hj)) out)), Hne.
Qed.
Lemma invertible_onto n e : wf_cdi n e -> forall z, exists x, same n (image e x) z.
Proof.
  intros W z. set (e' := {| dn := dn e; dpoly := zeros n; dlin := dlin e; dshift := dshift e |}).
  assert (W' : wf_cdi n e').
  { destruct W. constructor; try assumption; [apply zeros_wf|apply zeros_special]. }
  destruct (decompose_facts brute_force brute_force_decides n e' (conj W' eq_refl)) as (c & _ & _ & V & I). destruct (image_onto n c e' V I z) as (x & Hx). exists x. exact Hx.
Qed.
Lemma parity_none n row x : ones row (seq 0 n) = [] -> parity n row x = false.
Proof.
  unfold ones, parity. induction (seq 0 n) as [|j l IH]; [reflexivity|]. cbn [filter map fold_right]. destruct (nth j row false); [discriminate|]. intros H. rewrite (IH H). reflexivity.
Qed.
Lemma row_nonzero n e r : wf_cdi n e -> r < n -> ones (nth r (dlin e) []) (seq 0 n) <> [].
Proof.
  intros W Hr E. destruct (invertible_onto n e W (fun _ => negb (nth r (dshift e) false))) as (x & Hx). specialize (Hx r Hr). unfold image in Hx. rewrite (wd_n n e W), (parity_none n _ x E) in Hx. destruct (nth r (dshift e) false); discriminate.
Qed.
Definition row_str (e : cdi) (n r : nat) : pystr := join (str " + ") (row_items (nth r (dlin e) []) (nth r (dshift e) false) n).
Lemma row_len n e r : wf_cdi n e -> r < n -> length (nth r (dlin e) []) = n.
Proof. intros W Hr. pose proof (wd_rows n e W) as H. rewrite Forall_forall in H. apply H, nth_In. rewrite (wd_lin n e W). exact Hr. Qed.
Lemma write_row_ok n e out r : wf_cdi n e -> r < n -> write_row e out r = Ok (out ++ row_str e n r ++ if r =? n - 1 then [] else str ",").
Proof.
  intros W Hr. unfold write_row. rewrite (index_e_ok (dlin e) r []) by (rewrite (wd_lin n e W); exact Hr). cbn [bind]. rewrite (wd_n n e W).
  rewrite (proj2 (write_cols _ (seq 0 n) (fun j Hj => eq_ind_r (fun m => j < m) (proj2 (proj1 (in_seq n 0 j) Hj)) (row_len n e r W Hr)) out) (row_nonzero n e r W Hr)). cbn [bind fst].
  rewrite (index_e_ok (dshift e) r false) by (rewrite (wd_shift n e W); exact Hr). cbn [bind]. f_equal. unfold row_str, row_items. pose proof (row_nonzero n e r W Hr) as N. destruct (nth r (dshift e) false).
  - rewrite join_app1 by (destruct (ones _ _); [contradiction|discriminate]). destruct (r =? n - 1); rewrite <- !app_assoc; reflexivity.
  - rewrite app_nil_r. destruct (r =? n - 1); rewrite ?app_nil_r, <- ?app_assoc; reflexivity.
Qed.
Lemma write_rows n e k a : wf_cdi n e -> S a + k = n -> forall out, foldM (write_row e) (seq a (S k)) out = Ok (out ++ join (str ",") (map (row_str e n) (seq a (S k)))).
Proof.
  intros W. revert a. induction k as [|k IH]; intros a E out.
  - cbn [seq foldM map join]. rewrite (write_row_ok n e out a W) by lia. cbn [bind]. replace (a =? n - 1) with true by (symmetry; apply Nat.eqb_eq; lia). rewrite app_nil_r. reflexivity.
  - change (seq a (S (S k))) with (a :: seq (S a) (S k)). cbn [foldM]. rewrite (write_row_ok n e out a W) by lia. cbn [bind]. replace (a =? n - 1) with false by (symmetry; apply Nat.eqb_neq; lia). rewrite (IH (S a) ltac:(lia)). f_equal. cbn [seq map join]. rewrite <- !app_assoc. reflexivity.
Qed.
Lemma sum_row x n e r : wf_cdi n e -> r < n -> exists v, sum_value x (row_str e n r) = Ok v /\ Z.odd v = image e x r.
Proof.
  intros W Hr. unfold row_str. pose proof (row_nonzero n e r W Hr) as N. unfold image. rewrite (wd_n n e W). set (row := nth r (dlin e) []) in *. set (s := nth r (dshift e) false) in *. clearbody row s.
  rewrite sum_items.
  - unfold row_items.
    assert (M : mapM (product_value x) (map var (ones row (seq 0 n)) ++ (if s then [str "1"] else [])) = Ok (map (fun i => bit (x i)) (ones row (seq 0 n)) ++ if s then [1%Z] else [])).
    { clear N. induction (ones row (seq 0 n)) as [|i l IH]; cbn [map app mapM].
      - destruct s; reflexivity.
      - rewrite product_var, IH. reflexivity. }
    rewrite M. cbn [bind]. eexists. split; [reflexivity|]. rewrite zsum_app, Z.odd_add. f_equal; [|destruct s; reflexivity]. clear. unfold parity, ones. induction (seq 0 n) as [|j l IH]; [reflexivity|]. cbn [filter map fold_right]. destruct (nth j row false); cbn [map zsum andb]; [|rewrite Bool.xorb_false_l; exact IH]. rewrite Z.odd_add, IH. destruct (x j); reflexivity.
  - unfold row_items. destruct (ones row (seq 0 n)); [contradiction|discriminate].
  - intros t Ht. unfold row_items in Ht. apply in_app_iff in Ht as [Ht|Ht]; [apply in_map_iff in Ht as (i & <- & _); apply plain_var|]. destruct s; [|destruct Ht]. destruct Ht as [<-|[]]. intros c [<-|[]]. reflexivity.
Qed.
(** Characters of sums with their signs. *)
Definition spaced (s : pystr) : Prop := forall c, In c s -> (inner c || mem c (str " +"))%bool = true.
Lemma spaced_join l : (forall s, In s l -> plain s) -> spaced (join (str " + ") l).
Proof.
  intros H. destruct l as [|a l]; [intros c []|]. rewrite join_concat. intros c Hc. apply in_app_iff in Hc as [Hc|Hc]; [rewrite (H a (or_introl eq_refl) c Hc); reflexivity|].
  apply in_concat in Hc as (t & Ht & Hc). apply in_map_iff in Ht as (s & <- & Hs). apply in_app_iff in Hc as [[<-|[<-|[<-|[]]]]|Hc]; try reflexivity. rewrite (H s (or_intror Hs) c Hc). reflexivity.
Qed.
Lemma spaced_no c s : spaced s -> (inner c || mem c (str " +"))%bool = false -> ~ In c s.
Proof. intros H E K. rewrite (H c K) in E. discriminate. Qed.
Lemma spaced_row e n r : spaced (row_str e n r).
Proof.
  apply spaced_join. intros t Ht. unfold row_items in Ht. apply in_app_iff in Ht as [Ht|Ht]; [apply in_map_iff in Ht as (i & <- & _); apply plain_var|]. destruct (nth r (dshift e) false); [|destruct Ht]. destruct Ht as [<-|[]]. intros c [<-|[]]. reflexivity.
Qed.
Lemma space_sum x s : sum_value x (" "%char :: s) = sum_value x s. Proof. reflexivity. Qed.
Lemma in_join c sep l : In c (join sep l) -> In c sep \/ exists s, In s l /\ In c s.
Proof.
  destruct l as [|a l]; [intros []|]. rewrite join_concat, in_app_iff. intros [H|H]; [right; exists a; split; [left; reflexivity|exact H]|]. apply in_concat in H as (t & Ht & H). apply in_map_iff in Ht as (s & <- & Hs). apply in_app_iff in H as [H|H]; [left; exact H|right; exists s; split; [right; exact Hs|exact H]].
Qed.
Lemma cdi_str_eq n e : wf_cdi n e -> exists ps, poly_str (dpoly e) = Ok ps /\ spaced ps /\ cdi_str e = Ok (join [nl] [str "phase polynomial = "; ps; str "affine function = "; str " (" ++ join (str ",") (map (row_str e n) (seq 0 n)) ++ str ")"; []]).
Proof.
  intros W. pose proof (wd_poly n e W) as Wp. eexists. split; [apply (poly_str_eq n _ Wp)|]. split.
  - apply spaced_join. intros s [<-|Hs]; [apply plain_zdec|apply (plain_shown _ _ _ Hs)].
  - unfold cdi_str. rewrite (poly_str_eq n _ Wp). cbn [bind]. rewrite (wd_n n e W). pose proof (wd_pos n e W) as P. destruct n as [|k]; [lia|]. rewrite (write_rows (S k) e k 0 W eq_refl). cbn [bind]. f_equal. cbn [join]. rewrite <- !app_assoc. reflexivity.
Qed.
Lemma described_ok n e : wf_cdi n e -> exists s, cdi_str e = Ok s /\ forall x, described s x = Ok (phase_at e x, map (image e x) (seq 0 n)).
Proof.
  intros W. destruct (cdi_str_eq n e W) as (ps & Eps & Sps & E). eexists. split; [exact E|]. intros x.
  destruct (poly_str_value n _ (wd_poly n e W)) as (ps' & Eps' & V). assert (ps' = ps) by congruence. subst ps'.
  unfold described. change newline with nl. rewrite split_join_ne.
  - cbn [app]. rewrite !eqb_refl. cbn [andb]. rewrite V. cbn [bind].
    assert (A : without ["("%char; ")"%char] (str " (" ++ join (str ",") (map (row_str e n) (seq 0 n)) ++ str ")") = " "%char :: join (str ",") (map (row_str e n) (seq 0 n))).
    { rewrite !without_app. change (without ["("%char; ")"%char] (str " (")) with [" "%char]. change (without ["("%char; ")"%char] (str ")")) with (@nil ascii). rewrite app_nil_r. cbn [app]. f_equal. apply without_none. intros c Hc K. apply in_join in Hc as [[<-|[]]|(s & Hs & Hc)]; [destruct K as [K|[K|[]]]; discriminate|]. apply in_map_iff in Hs as (r & <- & _). destruct K as [<-|[<-|[]]]; revert Hc; apply (spaced_no _ _ (spaced_row e n r)); reflexivity. }
    cbn [app] in A. cbn [app]. rewrite A. pose proof (wd_pos n e W) as P. destruct n as [|k]; [lia|]. cbn [seq map].
    assert (J : " "%char :: join (str ",") (row_str e (S k) 0 :: map (row_str e (S k)) (seq 1 k)) = join [","%char] ((" "%char :: row_str e (S k) 0) :: map (row_str e (S k)) (seq 1 k))) by (rewrite !join_concat; reflexivity).
    rewrite J, split_join1.
    + cbn [mapM]. rewrite space_sum. destruct (sum_row x (S k) e 0 W ltac:(lia)) as (v & Ev & Ov). rewrite Ev. cbn [bind].
      assert (R : forall l, (forall r, In r l -> r < S k) -> exists vs, mapM (sum_value x) (map (row_str e (S k)) l) = Ok vs /\ map Z.odd vs = map (image e x) l).
      { induction l as [|r l IH]; intros H; [exists []; auto|]. destruct (sum_row x (S k) e r W (H r (or_introl eq_refl))) as (v' & E' & O'). destruct (IH (fun r' Hr => H r' (or_intror Hr))) as (vs & Evs & Ovs). exists (v' :: vs). cbn [map mapM]. rewrite E', Evs. split; [reflexivity|]. cbn [map]. congruence. }
      destruct (R (seq 1 k)) as (vs & Evs & Ovs); [intros r Hr; apply in_seq in Hr; lia|]. rewrite Evs. cbn [bind map]. rewrite Ov, Ovs. reflexivity.
    + intros s [<-|Hs]; [|apply in_map_iff in Hs as (r & <- & _); apply (spaced_no _ _ (spaced_row e (S k) r)); reflexivity]. intros [K|K]; [discriminate|]. revert K. apply (spaced_no _ _ (spaced_row e (S k) 0)). reflexivity.
  - discriminate.
  - intros s [<-|[<-|[<-|[<-|[<-|[]]]]]].
    + cbn. intuition discriminate.
    + apply (spaced_no _ _ Sps). reflexivity.
    + cbn. intuition discriminate.
    + intros K. apply in_app_iff in K as [K|K]; [cbn in K; intuition discriminate|]. apply in_app_iff in K as [K|K]; [|cbn in K; intuition discriminate]. apply in_join in K as [K|(s & Hs & K)]; [cbn in K; intuition discriminate|]. apply in_map_iff in Hs as (r & <- & _). revert K. apply (spaced_no _ _ (spaced_row e n r)). reflexivity.
    + intros [].
Qed.
(** Elements with the same action, global phase included, are equal. *)
Lemma cdi_same n a b : wf_cdi n a -> wf_cdi n b -> (forall x, same n (image a x) (image b x)) -> (forall x, phase_at a x = phase_at b x) -> a = b.
Proof.
  intros Wa Wb Hi Hp. pose (z := fun _ : nat => false).
  assert (Pol : dpoly a = dpoly b) by (apply (unique n); [apply (wd_poly n a Wa)|apply (wd_poly n b Wb)|]; intros x _; specialize (Hp x); unfold phase_at in Hp; rewrite Hp; reflexivity).
  assert (Sh : forall i, i < n -> nth i (dshift a) false = nth i (dshift b) false). { intros i Hlt. specialize (Hi z i Hlt). unfold image in Hi. rewrite (wd_n n a Wa), (wd_n n b Wb) in Hi. unfold z in Hi. rewrite !parity_zero, !Bool.xorb_false_l in Hi. exact Hi. }
  assert (ShE : dshift a = dshift b). { apply (nth_ext _ _ false false); [rewrite (wd_shift n a Wa), (wd_shift n b Wb); reflexivity|]. rewrite (wd_shift n a Wa). exact Sh. }
  assert (Li : dlin a = dlin b).
  { apply (nth_ext _ _ [] []); [rewrite (wd_lin n a Wa), (wd_lin n b Wb); reflexivity|]. rewrite (wd_lin n a Wa). intros i Hlt. pose proof (row_len n a i Wa Hlt) as La. pose proof (row_len n b i Wb Hlt) as Lb.
    apply (nth_ext _ _ false false); [congruence|]. rewrite La. intros j Hj. specialize (Hi (Nat.eqb j) i Hlt). unfold image in Hi. rewrite (wd_n n a Wa), (wd_n n b Wb), !parity_point, (Sh i Hlt) in Hi by exact Hj. destruct (nth j (nth i (dlin a) []) false), (nth j (nth i (dlin b) []) false), (nth i (dshift b) false); cbn in Hi; congruence. }
  pose proof (wd_n n a Wa) as Na. pose proof (wd_n n b Wb) as Nb. destruct a, b. cbn in *. subst. reflexivity.
Qed.
Lemma cdi_str_inj n m a b s : wf_cdi n a -> wf_cdi m b -> cdi_str a = Ok s -> cdi_str b = Ok s -> a = b.
Proof.
  intros Wa Wb Ea Eb. destruct (described_ok n a Wa) as (s1 & E1 & D1), (described_ok m b Wb) as (s2 & E2 & D2). assert (s1 = s) by congruence. assert (s2 = s) by congruence. subst.
  assert (D : forall x, phase_at a x = phase_at b x /\ map (image a x) (seq 0 n) = map (image b x) (seq 0 m)). { intros x. specialize (D1 x). specialize (D2 x). rewrite D1 in D2. split; congruence. }
  assert (n = m). { destruct (D (fun _ => false)) as [_ H]. apply (f_equal (@length bool)) in H. rewrite !map_length, !seq_length in H. exact H. } subst m.
  apply (cdi_same n a b Wa Wb); [|intros x; apply D]. intros x i Hi. destruct (D x) as [_ H]. apply (f_equal (fun l => nth i l false)) in H.
  rewrite (nth_indep _ false (image a x 0)) in H by (rewrite map_length, seq_length; exact Hi). rewrite map_nth, seq_nth in H by exact Hi. rewrite (nth_indep _ false (image b x 0)) in H by (rewrite map_length, seq_length; exact Hi). rewrite map_nth, seq_nth in H by exact Hi. exact H.
Qed.
Lemma reflect_iff' {A} `{Eqb A} (a b : A) : eqb a b = true <-> a = b.
Proof. destruct (eqb_spec a b) as [E|E]; split; intros K; congruence. Qed.
Lemma zero_row n e r out : dn e = n -> r < n -> nth_error (dlin e) r = Some (repeat false n) -> nth_error (dshift e) r = Some true ->
  exists rest, write_row e out r = Ok (out ++ str " + 1" ++ rest).
Proof.
  intros En Hr El Es. unfold write_row, index_e. rewrite El, Es, En. cbn [bind].
  assert (F : forall l, (forall j, In j l -> j < n) -> foldM (write_col (repeat false n)) l (out, false) = Ok (out, false)).
  { induction l as [|j l IH]; intros H; [reflexivity|]. cbn [foldM]. unfold write_col at 1. rewrite (index_e_ok _ j false) by (rewrite repeat_length; apply H; left; reflexivity). cbn [bind]. rewrite nth_repeat. apply IH. intros; apply H; right; assumption. }
  rewrite F by (intros j Hj; apply in_seq in Hj; lia). cbn [bind fst]. destruct (r =? n - 1); [exists []; rewrite app_nil_r; reflexivity|]. exists (str ","). rewrite <- app_assoc. reflexivity.
Qed.
