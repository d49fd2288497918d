(** States that are products over the qubits. *)
From Coq Require Import QArith.
From Verif Require Import Base LinAlg QSem DihedralModel RBSeqModel RBSeqSpec StdGates AccSpec AccLayerProofs EmbedProofs TomoFitSpec TomoLayerProofs.
Local Open Scope list_scope.
Local Open Scope nat_scope.

Section Prod.
Context {F : Type} {HF : Fld F}.
Add Field FldFieldP : fth.
Local Open Scope fld_scope.

Fixpoint pst (f : nat -> bool -> F) (x : bits) : F :=
  match x with [] => 1 | b :: x' => f 0%nat b * pst (fun q => f (S q)) x' end.
Definition upd {A} (f : nat -> A) (q : nat) (g : A) : nat -> A := fun j => if j =? q then g else f j.

Lemma upd_eq {A} f q (g : A) : upd f q g q = g.
Proof. unfold upd. rewrite Nat.eqb_refl. reflexivity. Qed.
Lemma upd_ne {A} f q q' (g : A) : q' <> q -> upd f q g q' = f q'.
Proof. intros H. unfold upd. destruct (Nat.eqb_spec q' q); [contradiction|reflexivity]. Qed.
Lemma pst_ext f g x : (forall q b, (q < length x)%nat -> f q b = g q b) -> pst f x = pst g x.
Proof.
  revert f g. induction x as [|b x IH]; intros f g H; cbn; [reflexivity|]. rewrite H by (cbn; lia). f_equal. apply IH. intros q b' Hq. apply H. cbn; lia.
Qed.
Lemma pst_upd f q g x : q < length x -> pst (upd f q g) x = g (nth q x false) * pst (upd f q (fun _ => 1)) x.
Proof.
  revert f q. induction x as [|b x IH]; intros f q Hq; [cbn in Hq; lia|]. destruct q as [|q].
  - cbn [pst nth]. rewrite !upd_eq.
    change (fun q : nat => upd f 0 g (S q)) with (fun q => f (S q)). change (fun q : nat => upd f 0 (fun _ : bool => 1) (S q)) with (fun q => f (S q)). ring.
  - cbn [pst nth]. rewrite !upd_ne by lia.
    change (fun q0 : nat => upd f (S q) g (S q0)) with (upd (fun q => f (S q)) q g).
    change (fun q0 : nat => upd f (S q) (fun _ : bool => 1) (S q0)) with (upd (fun q => f (S q)) q (fun _ : bool => 1)).
    rewrite IH by (cbn in Hq; lia). ring.
Qed.
Lemma pst_set f q b x : pst (upd f q (fun _ => 1)) (set1 x q b) = pst (upd f q (fun _ => 1)) x.
Proof.
  revert f q. induction x as [|c x IH]; intros f q; [reflexivity|]. destruct q as [|q]; cbn [set1 pst]; [reflexivity|].
  rewrite !upd_ne by lia. f_equal.
  transitivity (pst (upd (fun q => f (S q)) q (fun _ => 1)) (set1 x q b)); [apply pst_ext; reflexivity|]. rewrite IH. apply pst_ext. reflexivity.
Qed.
Lemma pst_self f q x : q < length x -> pst f x = f q (nth q x false) * pst (upd f q (fun _ => 1)) x.
Proof.
  intros H. rewrite <- (pst_upd f q (f q) x H). apply pst_ext. intros j b _. unfold upd. destruct (Nat.eqb_spec j q) as [->|]; reflexivity.
Qed.
Lemma pst_set1 f q b x : q < length x -> pst f (set1 x q b) = f q b * pst (upd f q (fun _ => 1)) x.
Proof. intros H. rewrite (pst_self f q) by (rewrite length_set1; exact H). rewrite nth_set1_eq by exact H. rewrite pst_set. reflexivity. Qed.

Definition is_prod (N : nat) (psi : amp F) (f : nat -> bool -> F) : Prop := forall x, length x = N -> psi x = pst f x.

Definition ket0 (b : bool) : F := if b then 0 else 1.
Definition ket1 (b : bool) : F := if b then 1 else 0.
Definition col (V : bool -> bool -> F) (f : bool -> F) (a : bool) : F := V a false * f false + V a true * f true.

Lemma prod_ground N : is_prod N (ground N) (fun _ => ket0).
Proof.
  intros x Hx. unfold ground. revert N Hx. induction x as [|b x IH]; intros [|N] Hx; try discriminate.
  - cbn [pst repeat]. rewrite eqb_refl. reflexivity.
  - injection Hx as Hx. cbn [pst repeat]. rewrite <- (IH N Hx). destruct b; cbn [ket0].
    + destruct (eqb_spec (true :: x) (false :: repeat false N)) as [E|_]; [discriminate|ring].
    + destruct (eqb_spec (false :: x) (false :: repeat false N)) as [E|E], (eqb_spec x (repeat false N)) as [E'|E']; try ring;
        exfalso; [injection E as E; contradiction | apply E; f_equal; exact E'].
Qed.
Lemma prod_acts N psi f q ops V : q < N -> acts ops q V -> is_prod N psi f -> is_prod N (run ops psi) (upd f q (col V (f q))).
Proof.
  intros Hq Ha Hp x Hx. rewrite Ha by lia. rewrite !Hp by (rewrite length_set1; exact Hx). rewrite (pst_upd f q (col V (f q))) by lia. rewrite !pst_set1 by lia. unfold col. ring.
Qed.
(** A two-qubit gate whose first qubit is surely 1. *)
Lemma prod_control N psi f gmat name c t W :
  c < N -> t < N -> c <> t -> f c = ket1 ->
  (forall a a' b', gmat name [] [a; a'] [true; b'] = if (a : bool) then W a' b' else 0) ->
  is_prod N psi f -> is_prod N (apply (op_of gmat {| gname := name; gparams := []; gqubits := [c; t] |}) psi) (upd f t (col W (f t))).
Proof.
  intros Hc Ht Hct Hf Hw Hp x Hx. rewrite apply2. rewrite !Hw. rewrite !Hp by (rewrite !length_set1; exact Hx).
  rewrite !pst_set1 by (rewrite ?length_set1; lia). rewrite Hf. cbn [ket1].
  rewrite !upd_ne by congruence.
  rewrite (pst_upd f t (col W (f t))) by lia. rewrite (pst_self (upd f t (fun _ => 1)) c) by lia. rewrite upd_ne by congruence. rewrite Hf.
  assert (E : pst (upd (upd f t (fun _ => 1)) c (fun _ => 1)) x = pst (upd (upd f c (fun _ => 1)) t (fun _ => 1)) x).
  { apply pst_ext. intros j b _. unfold upd. destruct (j =? c), (j =? t); reflexivity. }
  rewrite E. unfold col. destruct (nth c x false); cbn [ket1]; ring.
Qed.

(** Sums over all basis states. *)
Lemma sum_pst N : forall (g : nat -> bool -> F), (forall q, (q < N)%nat -> g q false + g q true = 1) -> fsum (map (pst g) (cube N)) = 1.
Proof.
  induction N as [|N IH]; intros g Hg; [cbn; unfold fsum; cbn; ring|]. cbn [cube]. rewrite map_app, fsum_app, !map_map. cbn [pst].
  rewrite !fsum_map_mul. rewrite (IH (fun q => g (S q))) by (intros q Hq; apply Hg; lia).
  transitivity (g 0%nat false + g 0%nat true); [ring|]. apply Hg. lia.
Qed.
Lemma sum_pst_at N qs : NoDup qs -> Forall (fun q => (q < N)%nat) qs -> forall os (g : nat -> bool -> F), length os = length qs ->
  (forall q, (q < N)%nat -> g q false + g q true = 1) ->
  fsum (map (fun x => if eqb (rd qs x) os then pst g x else 0) (cube N)) = fold_right fmul 1 (map (fun qo => g (fst qo) (snd qo)) (combine qs os)).
Proof.
  induction qs as [|q qs IH]; intros Hn Hlt [|o os] g Hl Hg; try discriminate.
  - cbn [rd map combine fold_right]. rewrite <- (sum_pst N g Hg). apply fsum_map_ext. intros x _. rewrite eqb_refl. reflexivity.
  - inversion Hn; subst. inversion Hlt; subst. injection Hl as Hl.
    set (d := fun b : bool => if Bool.eqb b o then 1 else 0 : F).
    assert (E : forall x, In x (cube N) -> (if eqb (rd (q :: qs) x) (o :: os) then pst g x else 0) = g q o * (if eqb (rd qs x) os then pst (upd g q d) x else 0)).
    { intros x Hx. apply in_cube in Hx. rewrite (pst_self g q x) by lia. rewrite (pst_upd g q d x) by lia. unfold d. unfold rd at 1. cbn [map]. change (map (fun q0 => nth q0 x false) qs) with (rd qs x).
      destruct (eqb_spec (nth q x false :: rd qs x) (o :: os)) as [E|E], (eqb_spec (rd qs x) os) as [E'|E'].
      - injection E as E _. rewrite E, Bool.eqb_reflx. ring.
      - injection E as _ E. contradiction.
      - destruct (Bool.eqb (nth q x false) o) eqn:Eb; [|ring]. apply Bool.eqb_prop in Eb. exfalso. apply E. congruence.
      - ring. }
    rewrite (fsum_map_ext _ _ _ E). rewrite fsum_map_mul. rewrite IH; auto.
    + cbn [combine map fold_right fst snd]. f_equal. f_equal. apply map_ext_in. intros [q' o'] Hi. cbn [fst snd]. rewrite upd_ne; [reflexivity|]. intros ->. apply in_combine_l in Hi. contradiction.
    + intros q' Hq'. destruct (Nat.eq_dec q' q) as [->|Hne]; [rewrite upd_eq; unfold d; destruct o; cbn; ring|rewrite upd_ne by exact Hne; auto].
Qed.
End Prod.

(** The distribution of the measured bits. *)
Section Law.
Context {F : Type} {HF : Fld F} {K : Type} {HK : Fld K}.
Variable gmat : pystr -> list Q -> bits -> bits -> F.
Variable w : F -> K.
Hypothesis Hw : weighing w.
Add Field FldFieldK : (fth (F:=K)).

Lemma w_pst f x : w (pst f x) = pst (fun q b => w (f q b)) x.
Proof. revert f. induction x as [|b x IH]; intros f; cbn; [apply (w_one w Hw)|]. rewrite (w_mul w Hw), IH. reflexivity. Qed.
Lemma key_of_inj a b : key_of a = key_of b -> a = b.
Proof.
  unfold key_of. intros H. assert (R : rev a = rev b); [|rewrite <- (rev_involutive a), <- (rev_involutive b), R; reflexivity].
  revert H. generalize (rev a) (rev b). clear. induction l as [|x l IH]; intros [|y l'] H; try discriminate; [reflexivity|]. cbn in H. injection H as E H. f_equal; [destruct x, y; congruence|apply IH; exact H].
Qed.
Lemma prod_law N qs body f :
  NoDup qs -> Forall (fun q => q < N) qs ->
  (forall y, length y = N -> reads (length qs) body y = rd qs y) ->
  is_prod N (final gmat N body) f ->
  (forall q, q < N -> fadd (w (f q false)) (w (f q true)) = f1) ->
  forall os, length os = length qs ->
  prob gmat w N (length qs) body (key_of os) = fold_right fmul f1 (map (fun qo => w (f (fst qo) (snd qo))) (combine qs os)).
Proof.
  intros Hn Hlt Hr Hp Hs os Hl. unfold prob, total.
  rewrite (fsum_map_ext (fun y => w (final gmat N body y)) (pst (fun q b => w (f q b))));
    [|intros y Hy; apply in_cube in Hy; rewrite (Hp y Hy), w_pst; reflexivity].
  rewrite (sum_pst N (fun q b => w (f q b))) by exact Hs.
  rewrite (fsum_map_ext _ (fun y => if eqb (rd qs y) os then pst (fun q b => w (f q b)) y else f0)).
  - rewrite (sum_pst_at N qs Hn Hlt os (fun q b => w (f q b)) Hl Hs). field. apply f1_neq_0.
  - intros y Hy. apply in_cube in Hy. rewrite (Hr y Hy), (Hp y Hy), w_pst. destruct (eqb_spec (key_of (rd qs y)) (key_of os)) as [E|E], (eqb_spec (rd qs y) os) as [E'|E']; auto.
    + apply key_of_inj in E. contradiction.
    + exfalso. apply E. rewrite E'. reflexivity.
Qed.
End Law.
