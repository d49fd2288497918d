(** The projection of IQ data on a line (C69). *)
From Coq Require Import QArith Reals Lra.
From Coquelicot Require Import Coquelicot.
From Verif Require Import Base LinAlg PyStr IQModel IQSpec IQProofs.
Local Open Scope list_scope.
Local Open Scope nat_scope.

Lemma rsum_acc l x : fold_left Rplus l x = (x + rsum l)%R.
Proof. revert x. induction l as [|a l IH]; intros x; cbn [fold_left rsum fold_right]; [lra|]. rewrite IH. cbn. unfold rsum. ring. Qed.
Lemma rmean_rsum l : rmean l = (rsum l / INR (length l))%R.
Proof. unfold rmean. rewrite rsum_acc. f_equal. lra. Qed.
Lemma csum_csumf l : csum l = csumf l.
Proof. induction l as [|a l IH]; [reflexivity|]. cbn [csum fold_right]. fold (csum l). rewrite IH. change (a :: l) with ([a] ++ l). rewrite csumf_app. f_equal. unfold csumf. cbn. symmetry. apply Cplus_0_l. Qed.
Lemma csum_re l : Re (csum l) = rsum (map Re l).
Proof. induction l as [|a l IH]; [reflexivity|]. cbn [csum fold_right map rsum]. fold (csum l). fold (rsum (map Re l)). rewrite <- IH. reflexivity. Qed.
Lemma csum_im l : Im (csum l) = rsum (map Im l).
Proof. induction l as [|a l IH]; [reflexivity|]. cbn [csum fold_right map rsum]. fold (csum l). fold (rsum (map Im l)). rewrite <- IH. reflexivity. Qed.
Lemma rsum_add {A} (f g : A -> R) l : rsum (map (fun x => f x + g x)%R l) = (rsum (map f l) + rsum (map g l))%R.
Proof. induction l as [|a l IH]; cbn [map rsum fold_right]; [lra|]. fold (rsum (map (fun x => f x + g x)%R l)). rewrite IH. unfold rsum. ring. Qed.
Lemma rsum_scale {A} (f : A -> R) k l : rsum (map (fun x => k * f x)%R l) = (k * rsum (map f l))%R.
Proof. induction l as [|a l IH]; cbn [map rsum fold_right]; [lra|]. fold (rsum (map (fun x => k * f x)%R l)). rewrite IH. unfold rsum. ring. Qed.
Lemma rsum_const {A} k (l : list A) : rsum (map (fun _ => k) l) = (INR (length l) * k)%R.
Proof. induction l as [|a l IH]; [cbn; lra|]. cbn [map rsum fold_right length]. fold (rsum (map (fun _ : A => k) l)). rewrite IH, S_INR. ring. Qed.
Lemma rsum_nonneg l : (forall x, In x l -> 0 <= x)%R -> (0 <= rsum l)%R.
Proof. induction l as [|a l IH]; intros H; cbn [rsum fold_right]; [lra|]. fold (rsum l). specialize (IH (fun x Hx => H x (or_intror Hx))). specialize (H a (or_introl eq_refl)). lra. Qed.
Lemma rsum_zero l : (forall x, In x l -> 0 <= x)%R -> rsum l = 0%R -> forall x, In x l -> x = 0%R.
Proof.
  induction l as [|a l IH]; intros H E x Hx; [destruct Hx|]. cbn [rsum fold_right] in E. fold (rsum l) in E. pose proof (rsum_nonneg l (fun y Hy => H y (or_intror Hy))). pose proof (H a (or_introl eq_refl)).
  destruct Hx as [<-|Hx]; [lra|]. apply IH; auto; [|lra]. intros y Hy. apply H. right. exact Hy.
Qed.
Lemma INR_len {A} (l : list A) : l <> [] -> (0 < INR (length l))%R.
Proof. intros H. apply lt_0_INR. destruct l; [congruence|cbn; lia]. Qed.

Definition mean_c (l : list C) : C := Cdiv (csum l) (RtoC (INR (length l))).
Lemma mean_cmean l : l <> [] -> mean_c l = cmean l.
Proof. intros H. unfold mean_c, cmean. rewrite csum_csumf. unfold Cdiv. rewrite <- RtoC_inv by (pose proof (INR_len l H); lra). apply Cmult_comm. Qed.
Lemma mean_re l : l <> [] -> Re (mean_c l) = (rsum (map Re l) / INR (length l))%R.
Proof. intros H. rewrite <- csum_re. unfold mean_c, Cdiv. rewrite <- RtoC_inv by (pose proof (INR_len l H); lra). unfold Cmult, RtoC, Re. cbn [fst snd]. unfold Rdiv. ring. Qed.
Lemma mean_im l : l <> [] -> Im (mean_c l) = (rsum (map Im l) / INR (length l))%R.
Proof. intros H. rewrite <- csum_im. unfold mean_c, Cdiv. rewrite <- RtoC_inv by (pose proof (INR_len l H); lra). unfold Cmult, RtoC, Im. cbn [fst snd]. unfold Rdiv. ring. Qed.

(** The extents and the projection of a list that is not empty. *)
Definition ext (f : C -> R) (l : list C) : R := (rsum (map (fun z => Rabs (f z - f (mean_c l))) l) / INR (length l))%R.
Lemma project_unfold l : l <> [] -> project l =
  let c := ext Re l in let s := ext Im l in let n := sqrt (c ^ 2 + s ^ 2) in
  if Req_EM_T n 0 then None else Some (map (fun z => c / n * (Re z - Re (mean_c l)) + s / n * (Im z - Im (mean_c l)))%R l).
Proof.
  intros H. destruct l as [|z0 l0]; [congruence|]. cbn [project]. remember (z0 :: l0) as l eqn:El. fold (mean_c l). rewrite !map_map. unfold ext. cbn zeta.
  replace (map (fun x => Rabs (Re (Cminus x (mean_c l)))) l) with (map (fun z => Rabs (Re z - Re (mean_c l))) l) by (apply map_ext; reflexivity).
  replace (map (fun x => Rabs (Im (Cminus x (mean_c l)))) l) with (map (fun z => Rabs (Im z - Im (mean_c l))) l) by (apply map_ext; reflexivity).
  destruct (Req_EM_T _ 0); [reflexivity|]. f_equal.
Qed.
Lemma ext_nonneg f l : l <> [] -> (0 <= ext f l)%R.
Proof.
  intros H. unfold ext. pose proof (INR_len l H). apply Rmult_le_pos; [|apply Rlt_le, Rinv_0_lt_compat; assumption]. apply rsum_nonneg. intros x Hx. apply in_map_iff in Hx. destruct Hx as (z & <- & _). apply Rabs_pos.
Qed.
Lemma ext_zero f l : l <> [] -> ext f l = 0%R -> forall z, In z l -> f z = f (mean_c l).
Proof.
  intros H E z Hz. unfold ext in E. pose proof (INR_len l H) as Hp. assert (E' : rsum (map (fun z => Rabs (f z - f (mean_c l))) l) = 0%R) by (unfold Rdiv in E; apply Rmult_integral in E; destruct E as [E|E]; [exact E|]; exfalso; exact (Rinv_neq_0_compat _ (Rgt_not_eq _ _ Hp) E)).
  assert (Z : Rabs (f z - f (mean_c l)) = 0%R).
  { apply (rsum_zero _) with (2 := E'); [intros x Hx; apply in_map_iff in Hx; destruct Hx as (w & <- & _); apply Rabs_pos|]. apply (in_map (fun z => Rabs (f z - f (mean_c l)))). exact Hz. }
  destruct (Req_dec (f z - f (mean_c l)) 0) as [|N]; [lra|]. exfalso. exact (Rabs_no_R0 _ N Z).
Qed.
Lemma norm_zero c s : sqrt (c ^ 2 + s ^ 2) = 0%R -> c = 0%R /\ s = 0%R.
Proof. intros E. apply sqrt_eq_0 in E; [|pose proof (pow2_ge_0 c); pose proof (pow2_ge_0 s); lra]. split; nra. Qed.
Lemma norm_sq c s : (sqrt (c ^ 2 + s ^ 2) * sqrt (c ^ 2 + s ^ 2) = c ^ 2 + s ^ 2)%R.
Proof. apply sqrt_sqrt. pose proof (pow2_ge_0 c); pose proof (pow2_ge_0 s); lra. Qed.

(** The projection is on a unit vector in the first quadrant. *)
Lemma project_dir l ys : l <> [] -> project l = Some ys -> exists c s, (0 <= c)%R /\ (0 <= s)%R /\ (c * c + s * s = 1)%R /\ ys = map (fun z => c * (Re z - Re (mean_c l)) + s * (Im z - Im (mean_c l)))%R l.
Proof.
  intros H. rewrite project_unfold by exact H. cbn zeta. destruct (Req_EM_T _ 0) as [|N]; [discriminate|]. intros E. injection E as <-.
  pose proof (ext_nonneg Re l H). pose proof (ext_nonneg Im l H). pose proof (norm_sq (ext Re l) (ext Im l)) as Q. set (n := sqrt _) in *. assert (P : (0 < n)%R) by (pose proof (sqrt_pos (ext Re l ^ 2 + ext Im l ^ 2)); unfold n in *; lra).
  exists (ext Re l / n)%R, (ext Im l / n)%R. split; [apply Rmult_le_pos; [assumption|apply Rlt_le, Rinv_0_lt_compat, P]|]. split; [apply Rmult_le_pos; [assumption|apply Rlt_le, Rinv_0_lt_compat, P]|].
  split; [|reflexivity]. transitivity ((ext Re l ^ 2 + ext Im l ^ 2) / (n * n))%R; [field; lra|]. rewrite <- Q. field. lra.
Qed.
Lemma project_none l : project l = None <-> l <> [] /\ exists z, forall w, In w l -> w = z.
Proof.
  destruct l as [|z0 l0]; [split; [discriminate|intros [H _]; congruence]|]. remember (z0 :: l0) as l eqn:El. assert (H : l <> []) by (rewrite El; discriminate). rewrite project_unfold by exact H. cbn zeta. split.
  - destruct (Req_EM_T _ 0) as [E|]; [|discriminate]. intros _. split; [exact H|]. exists (mean_c l). apply norm_zero in E. destruct E as [E1 E2]. intros w Hw. apply injective_projections; [exact (ext_zero Re l H E1 w Hw)|exact (ext_zero Im l H E2 w Hw)].
  - intros (_ & z & Hz). assert (EX : forall f : C -> R, (forall w, In w l -> f w = f z) -> f (mean_c l) = (rsum (map f l) / INR (length l))%R -> ext f l = 0%R).
    { intros f Hf Em. pose proof (INR_len l H). assert (M : f (mean_c l) = f z). { rewrite Em. replace (map f l) with (map (fun _ : C => f z) l) by (apply map_ext_in; intros w Hw; symmetry; apply Hf, Hw). rewrite rsum_const. field. lra. }
      unfold ext. rewrite M. replace (map (fun w => Rabs (f w - f z)) l) with (map (fun _ : C => 0%R) l) by (apply map_ext_in; intros w Hw; rewrite (Hf w Hw), Rminus_eq_0, Rabs_R0; reflexivity). rewrite rsum_const. unfold Rdiv. ring. }
    rewrite (EX Re), (EX Im); try (intros w Hw; rewrite (Hz w Hw); reflexivity); [|apply mean_im; exact H|apply mean_re; exact H].
    destruct (Req_EM_T _ 0) as [|N]; [reflexivity|]. exfalso. apply N. replace (0 ^ 2 + 0 ^ 2)%R with 0%R by ring. apply sqrt_0.
Qed.
Lemma centred_sum l c s : l <> [] -> rsum (map (fun z => c * (Re z - Re (mean_c l)) + s * (Im z - Im (mean_c l)))%R l) = 0%R.
Proof.
  intros H. pose proof (INR_len l H) as Hp. rewrite rsum_add, !rsum_scale.
  assert (Z : forall f : C -> R, f (mean_c l) = (rsum (map f l) / INR (length l))%R -> rsum (map (fun z => f z - f (mean_c l))%R l) = 0%R).
  { intros f E. unfold Rminus. rewrite (rsum_add f (fun _ => - f (mean_c l))%R), rsum_const, E. field. lra. }
  rewrite (Z Re (mean_re l H)), (Z Im (mean_im l H)). ring.
Qed.
Lemma cauchy c s x y : (c * c + s * s = 1)%R -> (Rabs (c * x + s * y) <= sqrt (x ^ 2 + y ^ 2))%R.
Proof.
  intros H. rewrite <- sqrt_Rsqr_abs. apply sqrt_le_1_alt. unfold Rsqr. pose proof (pow2_ge_0 (c * y - s * x)).
  replace (x ^ 2 + y ^ 2)%R with ((c * c + s * s) * (x ^ 2 + y ^ 2))%R by (rewrite H; ring). nra.
Qed.
(** ** Moving and scaling the data *)
Lemma map_nonempty {A B} (f : A -> B) l : l <> [] -> map f l <> [].
Proof. destruct l; [congruence|discriminate]. Qed.
Lemma mean_affine (k : R) (b : C) l : l <> [] -> mean_c (map (fun z => Cplus (Cmult (RtoC k) z) b) l) = Cplus (Cmult (RtoC k) (mean_c l)) b.
Proof.
  intros H. pose proof (INR_len l H). pose proof (map_nonempty (fun z => Cplus (Cmult (RtoC k) z) b) l H) as H'.
  assert (R1 : rsum (map (fun x => Re (Cplus (Cmult (RtoC k) x) b)) l) = (k * rsum (map Re l) + INR (length l) * Re b)%R).
  { rewrite <- (rsum_scale Re), <- (rsum_const (Re b) l), <- rsum_add. f_equal. apply map_ext. intros z. unfold Cplus, Cmult, RtoC, Re. cbn [fst snd]. ring. }
  assert (I1 : rsum (map (fun x => Im (Cplus (Cmult (RtoC k) x) b)) l) = (k * rsum (map Im l) + INR (length l) * Im b)%R).
  { rewrite <- (rsum_scale Im), <- (rsum_const (Im b) l), <- rsum_add. f_equal. apply map_ext. intros z. unfold Cplus, Cmult, RtoC, Im. cbn [fst snd]. ring. }
  apply injective_projections.
  - change (Re (mean_c (map (fun z => Cplus (Cmult (RtoC k) z) b) l)) = Re (Cplus (Cmult (RtoC k) (mean_c l)) b)). rewrite mean_re by exact H'. rewrite map_map, map_length, R1.
    transitivity (k * Re (mean_c l) + Re b)%R; [rewrite mean_re by exact H; field; lra|]. unfold Cplus, Cmult, RtoC, Re. cbn [fst snd]. ring.
  - change (Im (mean_c (map (fun z => Cplus (Cmult (RtoC k) z) b) l)) = Im (Cplus (Cmult (RtoC k) (mean_c l)) b)). rewrite mean_im by exact H'. rewrite map_map, map_length, I1.
    transitivity (k * Im (mean_c l) + Im b)%R; [rewrite mean_im by exact H; field; lra|]. unfold Cplus, Cmult, RtoC, Im. cbn [fst snd]. ring.
Qed.
Lemma affine_dev (f : C -> R) k b : (f = Re \/ f = Im) -> forall z m, (f (Cplus (Cmult (RtoC k) z) b) - f (Cplus (Cmult (RtoC k) m) b) = k * (f z - f m))%R.
Proof. intros [->| ->] z m; unfold Cplus, Cmult, RtoC, Re, Im; cbn [fst snd]; ring. Qed.
Lemma ext_affine (f : C -> R) k b l : (f = Re \/ f = Im) -> l <> [] -> ext f (map (fun z => Cplus (Cmult (RtoC k) z) b) l) = (Rabs k * ext f l)%R.
Proof.
  intros Hf H. unfold ext. rewrite map_map, map_length, mean_affine by exact H.
  replace (map (fun x => Rabs (f (Cplus (Cmult (RtoC k) x) b) - f (Cplus (Cmult (RtoC k) (mean_c l)) b))) l) with (map (fun z => Rabs k * Rabs (f z - f (mean_c l)))%R l)
    by (apply map_ext; intros z; rewrite (affine_dev f k b Hf), Rabs_mult; reflexivity).
  rewrite rsum_scale. unfold Rdiv. ring.
Qed.
Lemma project_affine k b l : k <> 0%R -> project (map (fun z => Cplus (Cmult (RtoC k) z) b) l) = option_map (map (Rmult k)) (project l).
Proof.
  intros Hk. destruct l as [|z0 l0]; [reflexivity|]. remember (z0 :: l0) as l eqn:El. assert (H : l <> []) by (rewrite El; discriminate).
  rewrite (project_unfold l H), (project_unfold _ (map_nonempty (fun z => Cplus (Cmult (RtoC k) z) b) l H)). cbn zeta. rewrite (ext_affine Re k b l (or_introl eq_refl) H), (ext_affine Im k b l (or_intror eq_refl) H), mean_affine by exact H.
  pose proof (Rabs_pos_lt k Hk) as Pk.
  replace (sqrt ((Rabs k * ext Re l) ^ 2 + (Rabs k * ext Im l) ^ 2)) with (Rabs k * sqrt (ext Re l ^ 2 + ext Im l ^ 2))%R.
  2:{ replace ((Rabs k * ext Re l) ^ 2 + (Rabs k * ext Im l) ^ 2)%R with (Rabs k * Rabs k * (ext Re l ^ 2 + ext Im l ^ 2))%R by ring. rewrite sqrt_mult_alt by nra. rewrite sqrt_square by lra. reflexivity. }
  set (n := sqrt (ext Re l ^ 2 + ext Im l ^ 2)). destruct (Req_EM_T (Rabs k * n) 0) as [E|N], (Req_EM_T n 0) as [E'|N'].
  - reflexivity.
  - exfalso. apply Rmult_integral in E. destruct E; lra.
  - exfalso. apply N. rewrite E'. ring.
  - cbn [option_map]. f_equal. rewrite !map_map. apply map_ext. intros z. rewrite (affine_dev Re k b (or_introl eq_refl)), (affine_dev Im k b (or_intror eq_refl)). field. split; lra.
Qed.
(** ** Data on a line *)
Lemma project_line (z d : C) ts : d <> RtoC 0 -> (exists t t', In t ts /\ In t' ts /\ t <> t') ->
  project (map (fun t => Cplus z (Cmult (RtoC t) d)) ts) = Some (map (fun t => (Re d * Rabs (Re d) + Im d * Rabs (Im d)) / Cmod d * t)%R (centred ts)).
Proof.
  intros Hd (t1 & t2 & I1 & I2 & Ht). assert (H : ts <> []) by (intros ->; destruct I1). pose proof (INR_len ts H) as Hp. set (P := fun t => Cplus z (Cmult (RtoC t) d)).
  assert (HP : map P ts <> []) by (apply map_nonempty; exact H). rewrite project_unfold by exact HP. cbn zeta.
  assert (MR : Re (mean_c (map P ts)) = (Re z + rmean ts * Re d)%R).
  { rewrite mean_re by exact HP. rewrite map_map, map_length, rmean_rsum. replace (map (fun x => Re (P x)) ts) with (map (fun t => Re z + Re d * t)%R ts) by (apply map_ext; intros t; unfold P, Cplus, Cmult, RtoC, Re; cbn [fst snd]; ring).
    rewrite rsum_add, rsum_const, (rsum_scale (fun t => t)), map_id. field. lra. }
  assert (MI : Im (mean_c (map P ts)) = (Im z + rmean ts * Im d)%R).
  { rewrite mean_im by exact HP. rewrite map_map, map_length, rmean_rsum. replace (map (fun x => Im (P x)) ts) with (map (fun t => Im z + Im d * t)%R ts) by (apply map_ext; intros t; unfold P, Cplus, Cmult, RtoC, Im; cbn [fst snd]; ring).
    rewrite rsum_add, rsum_const, (rsum_scale (fun t => t)), map_id. field. lra. }
  set (A := (rsum (map (fun t => Rabs (t - rmean ts)) ts) / INR (length ts))%R).
  assert (DR : forall t, (Re (P t) - Re (mean_c (map P ts)) = Re d * (t - rmean ts))%R) by (intros t; rewrite MR; unfold P, Cplus, Cmult, RtoC, Re; cbn [fst snd]; ring).
  assert (DI : forall t, (Im (P t) - Im (mean_c (map P ts)) = Im d * (t - rmean ts))%R) by (intros t; rewrite MI; unfold P, Cplus, Cmult, RtoC, Im; cbn [fst snd]; ring).
  assert (ER : ext Re (map P ts) = (Rabs (Re d) * A)%R).
  { unfold ext, A. rewrite map_map, map_length. replace (map (fun x => Rabs (Re (P x) - Re (mean_c (map P ts)))) ts) with (map (fun t => Rabs (Re d) * Rabs (t - rmean ts))%R ts) by (apply map_ext; intros t; rewrite DR, Rabs_mult; reflexivity). rewrite rsum_scale. unfold Rdiv. ring. }
  assert (EI : ext Im (map P ts) = (Rabs (Im d) * A)%R).
  { unfold ext, A. rewrite map_map, map_length. replace (map (fun x => Rabs (Im (P x) - Im (mean_c (map P ts)))) ts) with (map (fun t => Rabs (Im d) * Rabs (t - rmean ts))%R ts) by (apply map_ext; intros t; rewrite DI, Rabs_mult; reflexivity). rewrite rsum_scale. unfold Rdiv. ring. }
  assert (PA : (0 < A)%R).
  { assert (N0 : (0 <= rsum (map (fun t => Rabs (t - rmean ts)) ts))%R) by (apply rsum_nonneg; intros x Hx; apply in_map_iff in Hx; destruct Hx as (w & <- & _); apply Rabs_pos).
    destruct N0 as [N0|N0]; [apply Rmult_lt_0_compat; [exact N0|apply Rinv_0_lt_compat, Hp]|]. exfalso. apply Ht.
    assert (Z : forall t, In t ts -> t = rmean ts).
    { intros t It. assert (Z : Rabs (t - rmean ts) = 0%R) by (apply (rsum_zero _) with (2 := eq_sym N0); [intros x Hx; apply in_map_iff in Hx; destruct Hx as (w & <- & _); apply Rabs_pos|apply (in_map (fun t => Rabs (t - rmean ts))); exact It]).
      destruct (Req_dec (t - rmean ts) 0) as [|N]; [lra|]. exfalso. exact (Rabs_no_R0 _ N Z). }
    rewrite (Z t1 I1), (Z t2 I2). reflexivity. }
  rewrite ER, EI. assert (EN : sqrt ((Rabs (Re d) * A) ^ 2 + (Rabs (Im d) * A) ^ 2) = (A * Cmod d)%R).
  { replace ((Rabs (Re d) * A) ^ 2 + (Rabs (Im d) * A) ^ 2)%R with (A * A * (Re d ^ 2 + Im d ^ 2))%R by (rewrite !Rpow_mult_distr, !pow2_abs; ring).
    rewrite sqrt_mult_alt by nra. rewrite sqrt_square by lra. reflexivity. }
  rewrite EN. pose proof (Cmod_gt_0 d) as [G _]. specialize (G Hd).
  destruct (Req_EM_T (A * Cmod d) 0) as [E|_]; [exfalso; apply Rmult_integral in E; destruct E; lra|]. f_equal. unfold centred. rewrite !map_map. apply map_ext. intros t. rewrite DR, DI. field. split; lra.
Qed.
