(** Facts about the exception monad and list updates, shared by later areas. *)
From Verif Require Import Base.
Open Scope nat_scope.

Lemma bind_inv {A B} (r : result A) (f : A -> result B) b : bind r f = Ok b -> exists a, r = Ok a /\ f a = Ok b.
Proof. destruct r as [a|e]; cbn; [eauto | discriminate]. Qed.

(** Destruct a successful sequence of calls. *)
Ltac inv_bind H :=
  match type of H with
  | bind _ _ = Ok _ => let a := fresh "v" in let E := fresh "E" in
      apply bind_inv in H; destruct H as [a [E H]]
  end.

Lemma mapM_inv {A B} (f : A -> result B) l bs : mapM f l = Ok bs -> Forall2 (fun a b => f a = Ok b) l bs.
Proof.
  revert bs; induction l as [|a l IH]; cbn; intros bs H; [injection H as <-; constructor|].
  inv_bind H. inv_bind H. injection H as <-. constructor; auto.
Qed.
Lemma mapM_ok {A B} (f : A -> result B) (g : A -> B) l : (forall a, In a l -> f a = Ok (g a)) -> mapM f l = Ok (map g l).
Proof.
  induction l as [|a l IH]; intros H; [reflexivity|]. cbn [mapM map]. rewrite H by (left; reflexivity). cbn [bind].
  rewrite IH; [reflexivity|]. intros b Hb. apply H. right; exact Hb.
Qed.
Lemma mapM_total {A B} (f : A -> result B) (P : A -> B -> Prop) l :
  (forall a, In a l -> exists b, f a = Ok b /\ P a b) -> exists bs, mapM f l = Ok bs /\ Forall2 P l bs.
Proof.
  induction l as [|a l IH]; intros H; [exists []; auto|]. destruct (H a (or_introl eq_refl)) as [b [E Hb]].
  destruct IH as [bs [Es Hs]]; [intros x Hx; apply H; right; exact Hx|].
  exists (b :: bs). cbn. rewrite E, Es. auto.
Qed.
Lemma foldM_app' {A B} (f : B -> A -> result B) l l' b : foldM f (l ++ l') b = do b' <- foldM f l b; foldM f l' b'.
Proof. revert b; induction l as [|a l IH]; intros b; cbn; auto. destruct (f b a); cbn; auto. Qed.

Lemma index_inv {A} (l : list A) i a : index_e l i = Ok a -> nth_error l i = Some a.
Proof. unfold index_e. destruct (nth_error l i); congruence. Qed.
Lemma index_ok {A} (l : list A) i a : nth_error l i = Some a -> index_e l i = Ok a.
Proof. unfold index_e. intros ->. reflexivity. Qed.

Lemma Forall2_length' {A B} (P : A -> B -> Prop) l m : Forall2 P l m -> length l = length m.
Proof. induction 1; cbn; auto. Qed.
Lemma Forall2_nth {A B} (P : A -> B -> Prop) l m i a b : Forall2 P l m -> nth_error l i = Some a -> nth_error m i = Some b -> P a b.
Proof. intros H. revert i; induction H; intros [|i]; cbn; try discriminate; [congruence | apply IHForall2]. Qed.
Lemma Forall2_in_l {A B} (P : A -> B -> Prop) l m a : Forall2 P l m -> In a l -> exists b, In b m /\ P a b.
Proof. induction 1; cbn; intros []; [subst; eauto | destruct IHForall2 as [b' [? ?]]; eauto]. Qed.
Lemma Forall2_in_r {A B} (P : A -> B -> Prop) l m b : Forall2 P l m -> In b m -> exists a, In a l /\ P a b.
Proof. induction 1; cbn; intros []; [subst; eauto | destruct IHForall2 as [b' [? ?]]; eauto]. Qed.
