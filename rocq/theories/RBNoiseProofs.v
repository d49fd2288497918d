(** Sequences of depolarising gates (C71). *)
From Coq Require Import QArith Qreals Reals Lra.
From Coquelicot Require Import Coquelicot.
From Verif Require Import LinAlg Base PyStr CtmpSpec EntSpec GstOptSpec GstPauliProofs IQSpec RBFitModel RBEstSpec.
Local Open Scope list_scope.
Local Open Scope nat_scope.

Ltac toC := change (@fmul C Fld_C) with Cmult in *; change (@fadd C Fld_C) with Cplus in *; change (@f0 C Fld_C) with (RtoC 0) in *; change (@f1 C Fld_C) with (RtoC 1) in *.

Lemma conj_add a b : Cconj (Cplus a b) = Cplus (Cconj a) (Cconj b). Proof. apply injective_projections; cbn; lra. Qed.
Lemma conj_mul a b : Cconj (Cmult a b) = Cmult (Cconj a) (Cconj b). Proof. apply injective_projections; cbn; lra. Qed.
(** ** Matrices *)
Section Dim.
Context (d : nat).
Lemma same_refl A : same d A A. Proof. intros i j _ _. reflexivity. Qed.
Lemma same_sym A B : same d A B -> same d B A. Proof. intros H i j Hi Hj. symmetry. auto. Qed.
Lemma same_trans A B D : same d A B -> same d B D -> same d A D. Proof. intros H H' i j Hi Hj. rewrite H, H' by assumption. reflexivity. Qed.
Lemma product_ext A A' B B' : same d A A' -> same d B B' -> same d (product d A B) (product d A' B').
Proof. intros HA HB i j Hi Hj. apply csumn_ext. intros a Ha. rewrite HA, HB by assumption. reflexivity. Qed.
Lemma product_assoc A B D : same d (product d (product d A B) D) (product d A (product d B D)).
Proof.
  intros i j _ _. unfold product. transitivity (csumn d (fun a => csumn d (fun b => fmul (fmul (A i b) (B b a)) (D a j)))).
  - apply csumn_ext. intros a _. symmetry. apply csumn_mul_r.
  - rewrite csumn_swap. apply csumn_ext. intros b _. rewrite <- csumn_mul. apply csumn_ext. intros a _. toC. ring.
Qed.
Lemma product_id_l A : same d (product d identity A) A.
Proof.
  intros i j Hi _. unfold product, identity. rewrite <- (csumn_pick d i (fun a => A a j) Hi). apply csumn_ext. intros a _. destruct (i =? a); toC; ring.
Qed.
Lemma product_id_r A : same d (product d A identity) A.
Proof.
  intros i j _ Hj. unfold product, identity. rewrite <- (csumn_pick d j (fun a => A i a) Hj). apply csumn_ext. intros a _. rewrite Nat.eqb_sym. destruct (j =? a); toC; ring.
Qed.
Lemma trace_ext A B : same d A B -> trace d A = trace d B. Proof. intros H. apply csumn_ext. intros i Hi. auto. Qed.
Lemma trace_comm A B : trace d (product d A B) = trace d (product d B A).
Proof. unfold trace, product. rewrite csumn_swap. apply csumn_ext. intros a _. apply csumn_ext. intros b _. toC. ring. Qed.
Lemma csumn_conj n f : Cconj (csumn n f) = csumn n (fun a => Cconj (f a)).
Proof.
  unfold csumn. induction (seq 0 n) as [|a l IH]; [cbn [map]; rewrite !fsum_nil; toC; apply injective_projections; unfold Cconj; cbn [fst snd RtoC]; [reflexivity|apply Ropp_0]|]. cbn [map]. rewrite !fsum_cons, <- IH. apply conj_add.
Qed.
Lemma dagger_product A B : same d (dagger (product d A B)) (product d (dagger B) (dagger A)).
Proof. intros i j _ _. unfold dagger, product. rewrite csumn_conj. apply csumn_ext. intros a _. toC. rewrite conj_mul. ring. Qed.
Lemma dagger_ext A B : same d A B -> same d (dagger A) (dagger B). Proof. intros H i j Hi Hj. unfold dagger. rewrite H by assumption. reflexivity. Qed.
Lemma conjugate_ext U A B : same d A B -> same d (conjugate d U A) (conjugate d U B).
Proof. intros H. apply product_ext; [apply product_ext; [apply same_refl|exact H]|apply same_refl]. Qed.
Lemma conjugate_conjugate U V A : same d (conjugate d U (conjugate d V A)) (conjugate d (product d U V) A).
Proof.
  unfold conjugate. eapply same_trans; [|apply product_ext; [apply same_refl|apply same_sym, dagger_product]].
  eapply same_trans; [|apply product_assoc]. apply product_ext; [|apply same_refl].
  eapply same_trans; [apply same_sym, product_assoc|]. apply product_ext; [|apply same_refl]. apply same_sym, product_assoc.
Qed.
Lemma conjugate_trace U A : unitary d U -> trace d (conjugate d U A) = trace d A.
Proof.
  intros [H _]. unfold conjugate. rewrite trace_comm. apply trace_ext. eapply same_trans; [apply same_sym, product_assoc|].
  eapply same_trans; [apply product_ext; [exact H|apply same_refl]|apply product_id_l].
Qed.
Lemma conjugate_lin U A x y : unitary d U ->
  same d (conjugate d U (fun i j => fadd (fmul x (A i j)) (fmul y (identity i j)))) (fun i j => fadd (fmul x (conjugate d U A i j)) (fmul y (identity i j))).
Proof.
  intros [_ H] i j Hi Hj. rewrite <- (H i j Hi Hj). unfold conjugate. unfold product at 1 3. rewrite <- !csumn_mul. unfold product at 3. rewrite <- csumn_mul, <- csumn_add. apply csumn_ext. intros a Ha.
  replace (product d U (fun i0 j0 => fadd (fmul x (A i0 j0)) (fmul y (identity i0 j0))) i a) with (fadd (fmul x (product d U A i a)) (fmul y (U i a))).
  - toC. ring.
  - rewrite <- (product_id_r U i a Hi Ha). unfold product. rewrite <- !csumn_mul, <- csumn_add. apply csumn_ext. intros b _. toC. ring.
Qed.
Lemma conjugate_product U A B : unitary d U -> same d (product d (conjugate d U A) (conjugate d U B)) (conjugate d U (product d A B)).
Proof.
  intros [H _]. unfold conjugate.
  eapply same_trans; [apply product_assoc|]. 
  eapply same_trans; [apply product_ext; [apply same_refl|apply same_sym, product_assoc]|].
  eapply same_trans; [apply product_ext; [apply same_refl|apply product_ext; [apply same_sym, product_assoc|apply same_refl]]|].
  eapply same_trans; [apply product_ext; [apply same_refl|apply product_ext; [apply product_ext; [exact H|apply same_refl]|apply same_refl]]|].
  eapply same_trans; [apply product_ext; [apply same_refl|apply product_ext; [apply product_id_l|apply same_refl]]|].
  eapply same_trans; [apply same_sym, product_assoc|]. apply product_ext; [|apply same_refl]. apply product_assoc.
Qed.
Lemma conjugate_purity U A : unitary d U -> purity d (conjugate d U A) = purity d A.
Proof.
  intros H. change (trace d (product d (conjugate d U A) (conjugate d U A)) = trace d (product d A A)).
  rewrite (trace_ext _ _ (conjugate_product U A A H)). apply conjugate_trace. exact H.
Qed.
Lemma csumn_const n c : csumn n (fun _ => c) = fmul (RtoC (INR n)) c.
Proof.
  unfold csumn. rewrite <- (seq_length n 0) at 2. induction (seq 0 n) as [|a l IH]; [cbn [map length]; rewrite fsum_nil; toC; cbn [INR]; ring|].
  cbn [map length]. rewrite fsum_cons, IH, S_INR. toC. rewrite RtoC_plus. ring.
Qed.
Lemma identity_diag i : identity i i = f1. Proof. unfold identity. rewrite Nat.eqb_refl. reflexivity. Qed.
Lemma trace_lin A x y : trace d (fun i j => fadd (fmul x (A i j)) (fmul y (identity i j))) = fadd (fmul x (trace d A)) (fmul y (RtoC (INR d))).
Proof.
  unfold trace. rewrite csumn_add, csumn_mul. f_equal. transitivity (csumn d (fun _ => y)).
  - apply csumn_ext. intros a _. rewrite identity_diag. toC. ring.
  - rewrite csumn_const. toC. ring.
Qed.
End Dim.

(** ** Noise *)
Section Noise.
Context (d : nat) (Hd : 0 < d).
Lemma INR_d : INR d <> 0%R. Proof using Hd. apply not_0_INR. lia. Qed.
Lemma RtoC_d : RtoC (INR d) <> RtoC 0. Proof using Hd. intros E. apply INR_d. injection E. auto. Qed.
Lemma depolarise_trace p rho : trace d (depolarise d p rho) = trace d rho.
Proof using Hd.
  unfold depolarise. rewrite trace_lin. toC. unfold Rdiv. rewrite RtoC_mult, RtoC_inv, RtoC_minus by apply INR_d. pose proof RtoC_d. field. assumption.
Qed.
Lemma noisy_trace ops rho : (forall up, In up ops -> unitary d (fst up)) -> trace d (noisy d ops rho) = trace d rho.
Proof using Hd.
  revert rho. induction ops as [|[U p] ops IH]; intros rho H; [reflexivity|]. unfold noisy. cbn [fold_left fst snd]. fold (noisy d ops (depolarise d p (conjugate d U rho))).
  rewrite IH by (intros up Hu; apply H; right; exact Hu). rewrite depolarise_trace. apply conjugate_trace. exact (H (U, p) (or_introl eq_refl)).
Qed.
Definition strength (ops : list (op * R)) : R := fold_right Rmult 1%R (strengths ops).
Lemma strength_snoc ops up : strength (ops ++ [up]) = (strength ops * snd up)%R.
Proof.
  unfold strength, strengths. rewrite map_app. cbn [map]. generalize (map snd ops). clear ops Hd d. intros l. induction l as [|a l IH]; cbn [app fold_right]; [lra|]. rewrite IH. lra.
Qed.
Lemma noisy_snoc ops U p rho : noisy d (ops ++ [(U, p)]) rho = depolarise d p (conjugate d U (noisy d ops rho)).
Proof. unfold noisy. rewrite fold_left_app. reflexivity. Qed.
Lemma ideal_snoc ops U p : ideal d (ops ++ [(U, p)]) = product d U (ideal d ops).
Proof. unfold ideal. rewrite fold_left_app. reflexivity. Qed.
Lemma depolarise_ext p A B : same d A B -> same d (depolarise d p A) (depolarise d p B).
Proof. intros H i j Hi Hj. unfold depolarise. rewrite (H i j Hi Hj), (trace_ext d _ _ H). reflexivity. Qed.
Lemma noisy_form ops rho : (forall up, In up ops -> unitary d (fst up)) ->
  same d (noisy d ops rho) (fun i j => fadd (fmul (RtoC (strength ops)) (conjugate d (ideal d ops) rho i j)) (fmul (fmul (RtoC ((1 - strength ops) / INR d)) (trace d rho)) (identity i j))).
Proof using Hd.
  induction ops as [|[U p] ops IH] using rev_ind; intros H.
  - intros i j Hi Hj. unfold noisy, ideal, strength. cbn [fold_left strengths map fold_right]. assert (E : conjugate d identity rho i j = rho i j).
    { unfold conjugate. assert (ED : same d (dagger identity) identity). { intros k l _ _. unfold dagger, identity. rewrite Nat.eqb_sym. destruct (k =? l); apply injective_projections; cbn; lra. }
      rewrite (product_ext d _ rho _ identity (product_id_l d rho) ED i j Hi Hj). apply product_id_r; assumption. }
    rewrite E. toC. replace ((1 - 1) / INR d)%R with 0%R by (field; apply INR_d). ring.
  - assert (H1 : forall up, In up ops -> unitary d (fst up)) by (intros up Hu; apply H; apply in_or_app; left; exact Hu).
    assert (HU : unitary d U) by (apply (H (U, p)); apply in_or_app; right; left; reflexivity). specialize (IH H1).
    rewrite noisy_snoc, ideal_snoc, strength_snoc. cbn [snd]. intros i j Hi Hj. unfold depolarise. rewrite conjugate_trace, noisy_trace by assumption.
    rewrite (conjugate_ext d U _ _ IH i j Hi Hj). rewrite (conjugate_lin d U _ _ _ HU i j Hi Hj), (conjugate_conjugate d U _ rho i j Hi Hj).
    generalize (conjugate d (product d U (ideal d ops)) rho i j) (trace d rho) (identity i j) (strength ops). intros x t e s. toC. unfold Rdiv. rewrite !RtoC_mult, !RtoC_inv, !RtoC_minus, !RtoC_mult by apply INR_d. pose proof RtoC_d. field. assumption.
Qed.
Lemma ground_trace : trace d ground = f1.
Proof using Hd. unfold trace. rewrite <- (csumn_pick d 0 (fun _ => f1)) by exact Hd. apply csumn_ext. intros a _. unfold ground. destruct a; reflexivity. Qed.
Lemma conjugate_phase V rho : is_phase d V -> same d (conjugate d V rho) rho.
Proof.
  intros (w & Hw & HV) i j Hi Hj. unfold conjugate. rewrite (product_ext d _ (fun a b => fmul w (rho a b)) _ (fun a b => fmul (Cconj w) (identity a b))); [| | |exact Hi|exact Hj].
  - transitivity (fmul (fmul w (Cconj w)) (product d rho identity i j)).
    + unfold product. rewrite <- csumn_mul. apply csumn_ext. intros a _. toC. ring.
    + rewrite Hw, product_id_r by assumption. toC. ring.
  - intros a b Ha Hb. rewrite (product_ext d _ _ _ _ HV (same_refl d rho) a b Ha Hb). rewrite <- (product_id_l d rho a b Ha Hb). unfold product. rewrite <- csumn_mul. apply csumn_ext. intros k _. toC. ring.
  - intros a b Ha Hb. unfold dagger. rewrite (HV b a Hb Ha). toC. rewrite conj_mul. f_equal. unfold identity. rewrite Nat.eqb_sym. destruct (a =? b); apply injective_projections; cbn; lra.
Qed.
Lemma survival ops : closes d ops -> noisy d ops ground 0 0 = RtoC ((1 - / INR d) * strength ops + / INR d).
Proof using Hd.
  intros [HU HP]. rewrite (noisy_form ops ground HU 0 0 Hd Hd), (conjugate_phase _ ground HP 0 0 Hd Hd), ground_trace, identity_diag. unfold ground. cbn [Nat.eqb andb]. toC.
  rewrite <- !RtoC_mult, <- RtoC_plus. f_equal. field. apply INR_d.
Qed.
Lemma depolarise_purity p rho : purity d (depolarise d p rho) = fadd (fmul (RtoC (p ^ 2)) (purity d rho)) (fmul (RtoC ((1 - p ^ 2) / INR d)) (fmul (trace d rho) (trace d rho))).
Proof using Hd.
  change (purity d rho) with (trace d (product d rho rho)). unfold purity, tr2, depolarise. set (y := fmul (RtoC ((1 - p) / INR d)) (trace d rho)).
  transitivity (trace d (fun i j => fadd (fmul (RtoC (p ^ 2)) (product d rho rho i j)) (fadd (fmul (fmul (RtoC (p + p)) y) (rho i j)) (fmul (fmul y y) (identity i j))))).
  - unfold trace. apply csumn_ext. intros i Hi. transitivity (fadd (fmul (RtoC (p ^ 2)) (product d rho rho i i)) (fadd (fmul (fmul (RtoC p) y) (fadd (product d rho identity i i) (product d identity rho i i))) (fmul (fmul y y) (product d identity identity i i)))).
    + unfold product. rewrite <- csumn_add, <- !csumn_mul, <- !csumn_add. apply csumn_ext. intros a _. toC. cbn [pow]. rewrite Rmult_1_r, RtoC_mult. ring.
    + rewrite !product_id_r, product_id_l by assumption. toC. rewrite RtoC_plus. ring.
  - transitivity (fadd (fmul (RtoC (p ^ 2)) (trace d (product d rho rho))) (trace d (fun i j => fadd (fmul (fmul (RtoC (p + p)) y) (rho i j)) (fmul (fmul y y) (identity i j))))).
    + unfold trace. rewrite csumn_add, csumn_mul. reflexivity.
    + rewrite trace_lin. f_equal. unfold y. toC. unfold Rdiv. cbn [pow]. rewrite !Rmult_1_r, !RtoC_mult, !RtoC_inv, !RtoC_minus, !RtoC_plus, !RtoC_mult by apply INR_d. pose proof RtoC_d. field. assumption.
Qed.
Lemma noisy_purity ops rho : (forall up, In up ops -> unitary d (fst up)) ->
  purity d (noisy d ops rho) = fadd (fmul (RtoC (strength ops ^ 2)) (purity d rho)) (fmul (RtoC ((1 - strength ops ^ 2) / INR d)) (fmul (trace d rho) (trace d rho))).
Proof using Hd.
  induction ops as [|[U p] ops IH] using rev_ind; intros H.
  - unfold noisy, strength. cbn [fold_left strengths map fold_right]. toC. rewrite pow1. replace ((1 - 1) / INR d)%R with 0%R by (field; apply INR_d). ring.
  - assert (H1 : forall up, In up ops -> unitary d (fst up)) by (intros up Hu; apply H; apply in_or_app; left; exact Hu).
    assert (HU : unitary d U) by (apply (H (U, p)); apply in_or_app; right; left; reflexivity).
    rewrite noisy_snoc, depolarise_purity, strength_snoc, conjugate_purity, conjugate_trace, noisy_trace, IH by assumption. cbn [snd].
    generalize (trace d rho) (purity d rho) (strength ops). intros t e s. toC. unfold Rdiv. rewrite Rpow_mult_distr. cbn [pow]. rewrite !Rmult_1_r. rewrite !RtoC_mult, !RtoC_inv, !RtoC_minus, !RtoC_mult by apply INR_d. pose proof RtoC_d. field. assumption.
Qed.
Lemma ground_purity : purity d ground = f1.
Proof using Hd.
  rewrite <- ground_trace. change (trace d (product d ground ground) = trace d ground). apply trace_ext. intros i j Hi Hj.
  unfold product. transitivity (csumn d (fun a => if 0 =? a then ground i j else f0)); [|exact (csumn_pick d 0 (fun _ => ground i j) Hd)].
  apply csumn_ext. intros a _. unfold ground. destruct a, i, j; cbn [Nat.eqb andb]; toC; ring.
Qed.
Lemma ground_pure ops : (forall up, In up ops -> unitary d (fst up)) -> purity d (noisy d ops ground) = RtoC ((1 - / INR d) * strength ops ^ 2 + / INR d).
Proof using Hd.
  intros H. rewrite noisy_purity, ground_purity, ground_trace by assumption. toC. rewrite <- !RtoC_mult, <- RtoC_plus. f_equal. field. apply INR_d.
Qed.
Lemma depolarise_infidelity p psi : normalised d psi -> infidelity d (depolarise d p) psi = RtoC ((INR d - 1) / INR d * (1 - p)).
Proof using Hd.
  intros H. unfold infidelity. assert (T : trace d (pure psi) = f1).
  { unfold trace, pure. rewrite <- H. apply csumn_ext. intros i _. toC. ring. }
  replace (csumn d _) with (fadd (RtoC p) (RtoC ((1 - p) / INR d))).
  - toC. rewrite <- RtoC_plus, <- RtoC_minus. f_equal. field. apply INR_d.
  - transitivity (fadd (fmul (RtoC p) (fmul (csumn d (fun i => fmul (Cconj (psi i)) (psi i))) (csumn d (fun j => fmul (Cconj (psi j)) (psi j))))) (fmul (RtoC ((1 - p) / INR d)) (csumn d (fun i => fmul (Cconj (psi i)) (psi i))))).
    + rewrite H. toC. ring.
    + rewrite <- csumn_prod, <- !csumn_mul, <- csumn_add. apply csumn_ext. intros i Hi.
      transitivity (fadd (csumn d (fun j => fmul (fmul (Cconj (psi i)) (fmul (RtoC p) (pure psi i j))) (psi j))) (csumn d (fun j => if i =? j then fmul (fmul (Cconj (psi i)) (RtoC ((1 - p) / INR d))) (psi j) else f0))).
      * rewrite (csumn_pick d i (fun j => fmul (fmul (Cconj (psi i)) (RtoC ((1 - p) / INR d))) (psi j)) Hi). f_equal; [|toC; ring].
        rewrite <- csumn_mul. apply csumn_ext. intros j _. unfold pure. toC. ring.
      * rewrite <- csumn_add. apply csumn_ext. intros j _. unfold depolarise. rewrite T. unfold identity. destruct (i =? j); toC; ring.
Qed.
End Noise.

(** ** Sequences *)
Lemma strength_standard m p : fold_right Rmult 1%R (standard m p) = (p * p ^ m)%R.
Proof. unfold standard. cbn [repeat fold_right]. f_equal. induction m as [|m IH]; cbn [repeat fold_right pow]; [reflexivity|]. rewrite IH. reflexivity. Qed.
Lemma strength_interleaving m p pg : fold_right Rmult 1%R (interleaving m p pg) = (p * (p * pg) ^ m)%R.
Proof. unfold interleaving. induction m as [|m IH]; cbn [repeat concat app fold_right pow]; [ring|]. rewrite IH. ring. Qed.

(** ** Pauli strings *)
Lemma rsum_flat_map {A B} (g : B -> R) (h : A -> list B) l : fold_right Rplus 0%R (map g (flat_map h l)) = fold_right Rplus 0%R (map (fun a => fold_right Rplus 0%R (map g (h a))) l).
Proof.
  induction l as [|a l IH]; [reflexivity|]. cbn [flat_map map fold_right]. rewrite map_app, fold_right_app, IH. generalize (fold_right Rplus 0%R (map (fun a => fold_right Rplus 0%R (map g (h a))) l)). intros s.
  induction (map g (h a)) as [|x m IHm]; cbn [fold_right]; [lra|]. rewrite IHm. lra.
Qed.
Lemma rsum_ext {A} (g h : A -> R) l : (forall a, g a = h a) -> fold_right Rplus 0%R (map g l) = fold_right Rplus 0%R (map h l).
Proof. intros E. rewrite (map_ext g h E). reflexivity. Qed.
Lemma strings_sum n : forall x z r, let s := fold_right Rplus 0%R (map (fun s => if forallb (fun p => p =? 0) s then x else if forallb (fun p => (p =? 0) || (p =? 3)) s then z else r) (strings n)) in
  s = (x + (2 ^ n - 1) * z + (4 ^ n - 2 ^ n) * r)%R.
Proof.
  induction n as [|n IH]; intros x z r; [cbn; lra|]. cbn zeta. cbn [strings]. rewrite rsum_flat_map.
  rewrite (rsum_ext _ (fun s => if forallb (fun p => p =? 0) s then (x + z + 2 * r)%R else if forallb (fun p => (p =? 0) || (p =? 3)) s then (2 * z + 2 * r)%R else (4 * r)%R)).
  - rewrite IH. cbn [pow]. ring.
  - intros s. cbn [map forallb fold_right Nat.eqb andb orb]. assert (I : forallb (fun p => p =? 0) s = true -> forallb (fun p => (p =? 0) || (p =? 3)) s = true).
    { rewrite !forallb_forall. intros H p Hp. rewrite (H p Hp). reflexivity. }
    destruct (forallb (fun p => p =? 0) s); [rewrite (I eq_refl); lra|]. destruct (forallb _ s); lra.
Qed.
