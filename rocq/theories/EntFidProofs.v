(** Fidelities with cat states, and discrete Fourier transforms (C73). *)
From Coq Require Import Reals Lra Lia ZArith.
From Coquelicot Require Import Coquelicot.
From Verif Require Import LinAlg Base CountsModel ResultFacts QSem CtmpSpec StdGates AccSpec TomoModel EntSpec EntMqcProofs CharCircProofs EntFidModel EntFidSpec.
Local Open Scope list_scope.
Local Open Scope nat_scope.

Ltac toC := change (@fmul C Fld_C) with Cmult in *; change (@fadd C Fld_C) with Cplus in *; change (@fopp C Fld_C) with Copp in *; change (@f0 C Fld_C) with (RtoC 0) in *; change (@f1 C Fld_C) with (RtoC 1) in *.
Ltac cring := apply injective_projections; cbn; ring.

(** ** Complex numbers *)
Lemma cj_add (a b : C) : Cconj (fadd a b) = fadd (Cconj a) (Cconj b). Proof. cring. Qed.
Lemma cj_mul (a b : C) : Cconj (fmul a b) = fmul (Cconj a) (Cconj b). Proof. cring. Qed.
Lemma cj_0 : Cconj f0 = f0. Proof. cring. Qed.
Lemma cj_1 : Cconj f1 = f1. Proof. cring. Qed.
Lemma cj_cj a : Cconj (Cconj a) = a. Proof. cring. Qed.
Lemma sqmod_Cmod z : sqmod z = (Cmod z ^ 2)%R.
Proof. unfold sqmod, Cmod. rewrite pow2_sqrt; [ring|]. destruct z. cbn. nra. Qed.
Lemma Re_le_Cmod z : (Re z <= Cmod z)%R.
Proof.
  destruct z as [a b]. unfold Re, Cmod. cbn [fst snd]. apply Rle_trans with (Rabs a); [apply Rle_abs|]. rewrite <- (sqrt_Rsqr_abs a). apply sqrt_le_1_alt. unfold Rsqr. nra.
Qed.
Lemma Cmod_conj z : Cmod (Cconj z) = Cmod z.
Proof. unfold Cmod, Cconj. cbn. f_equal. ring. Qed.
Lemma Cmod_expi t : Cmod (expi t) = 1%R.
Proof. unfold Cmod, expi. cbn. pose proof (sin2_cos2 t) as E. unfold Rsqr in E. replace (cos t * (cos t * 1) + sin t * (sin t * 1))%R with 1%R by lra. apply sqrt_1. Qed.
Lemma conj_expi t : Cconj (expi t) = expi (- t).
Proof. unfold Cconj, expi. cbn. rewrite cos_neg, sin_neg. reflexivity. Qed.
Lemma unit_angle a b : (a * a + b * b = 1)%R -> exists t, cos t = a /\ sin t = b.
Proof.
  intros H. assert (Ha : (-1 <= a <= 1)%R) by nra. destruct (Rle_dec 0 b) as [Hb|Hb].
  - exists (acos a). rewrite cos_acos, sin_acos by exact Ha. split; [reflexivity|]. replace (1 - a²)%R with (b * b)%R by (unfold Rsqr; lra). apply sqrt_square, Hb.
  - exists (- acos a)%R. rewrite cos_neg, sin_neg, cos_acos, sin_acos by exact Ha. split; [reflexivity|]. replace (1 - a²)%R with ((- b) * (- b))%R by (unfold Rsqr; lra). rewrite sqrt_square by lra. ring.
Qed.
Lemma align z : exists t, Re (Cmult (expi t) z) = Cmod z.
Proof.
  destruct (Req_dec (Cmod z) 0) as [E|E].
  - apply Cmod_eq_0 in E. subst z. exists 0%R. rewrite Cmod_0. cbn. ring.
  - pose proof (sqmod_Cmod z) as S. unfold sqmod in S. set (m := Cmod z) in *.
    destruct (unit_angle (fst z / m) (- snd z / m)) as (t & Ec & Es).
    { replace (fst z / m * (fst z / m) + - snd z / m * (- snd z / m))%R with ((fst z * fst z + snd z * snd z) / m ^ 2)%R by (field; exact E). rewrite S. field. exact E. }
    exists t. cbn. rewrite Ec, Es. replace (fst z / m * fst z - - snd z / m * snd z)%R with ((fst z * fst z + snd z * snd z) / m)%R by (field; exact E). rewrite S. field. exact E.
Qed.
Lemma Re_sum {A} (f : A -> C) l : Re (fsum (map f l)) = fsum (HF:=Fld_R) (map (fun a => Re (f a)) l).
Proof. induction l as [|a l IH]; [reflexivity|]. cbn [map]. rewrite !fsum_cons. rewrite <- IH. reflexivity. Qed.
Lemma RtoC_fsum {A} (f : A -> R) l : RtoC (fsum (HF:=Fld_R) (map f l)) = fsum (map (fun a => RtoC (f a)) l).
Proof. induction l as [|a l IH]; [reflexivity|]. cbn [map]. rewrite !fsum_cons. rewrite <- IH. apply RtoC_plus. Qed.
Lemma real_of z : z = Cconj z -> RtoC (Re z) = z.
Proof. intros H. destruct z as [a b]. apply (f_equal snd) in H. apply injective_projections; [reflexivity|]. cbn in *. lra. Qed.
Lemma conj_sum {A} (f : A -> C) l : Cconj (fsum (map f l)) = fsum (map (fun a => Cconj (f a)) l).
Proof. induction l as [|a l IH]; [apply cj_0|]. cbn [map]. rewrite !fsum_cons. rewrite cj_add, IH. reflexivity. Qed.

(** ** Cat states *)
Section Cat.
Context {I : Type} {HI : Eqb I}.
Variables (idx : list I) (x0 x1 : I).
Hypothesis Hnd : NoDup idx.
Hypothesis H0 : In x0 idx.
Hypothesis H1 : In x1 idx.
Hypothesis Hne : x0 <> x1.
Lemma fsum_two (f : I -> C) : (forall y, In y idx -> y <> x0 -> y <> x1 -> f y = f0) -> fsum (map f idx) = fadd (f x0) (f x1).
Proof.
  intros H. rewrite (fsum_map_ext _ (fun y => fadd (if eqb x0 y then f y else f0) (if eqb x1 y then f y else f0))).
  - rewrite fsum_map_add, !fsum_pick by assumption. reflexivity.
  - intros y Hy. destruct (eqb_spec x0 y) as [E|E]; destruct (eqb_spec x1 y) as [E'|E']; [congruence| | |]; rewrite ?fadd_0_l, ?fadd_0_r; [reflexivity|reflexivity|]. apply H; congruence.
Qed.
Lemma form_two rho u : (forall y, In y idx -> y <> x0 -> y <> x1 -> u y = f0) ->
  form idx rho u = fadd (fadd (fmul (fmul (Cconj (u x0)) (rho x0 x0)) (u x0)) (fmul (fmul (Cconj (u x0)) (rho x0 x1)) (u x1)))
    (fadd (fmul (fmul (Cconj (u x1)) (rho x1 x0)) (u x0)) (fmul (fmul (Cconj (u x1)) (rho x1 x1)) (u x1))).
Proof.
  intros H. unfold form. rewrite fsum_two.
  - rewrite !fsum_two; [reflexivity| |]; intros y Hy A B; rewrite (H y Hy A B); toC; ring.
  - intros x Hx A B. apply fsum_map_zero'. intros y _. rewrite (H x Hx A B), cj_0. toC. ring.
Qed.
Variable rho : I -> I -> C.
Hypothesis Hs : state idx rho.
Lemma cat_form theta : Re (form idx rho (cat x0 x1 theta)) = (/ 2 * (Re (rho x0 x0) + Re (rho x1 x1)) + Re (Cmult (expi theta) (rho x0 x1)))%R.
Proof.
  rewrite form_two.
  - unfold cat. destruct (eqb_spec x0 x0) as [_|E]; [|congruence]. destruct (eqb_spec x1 x0) as [E|_]; [congruence|]. destruct (eqb_spec x1 x1) as [_|E]; [|congruence].
    rewrite (st_herm idx rho Hs x1 x0) by assumption. pose proof (sin2_cos2 theta) as E. unfold Rsqr in E. 
    assert (S : (/ sqrt 2 * / sqrt 2 = / 2)%R) by (rewrite <- Rinv_mult; rewrite sqrt_sqrt by lra; reflexivity).
    destruct (rho x0 x0) as [a a'], (rho x0 x1) as [b b'], (rho x1 x1) as [c c']. toC. cbn. set (s := (/ sqrt 2)%R) in *. set (co := cos theta) in *. set (si := sin theta) in *.
    transitivity ((s * s) * a + 2 * (s * s) * (co * b - si * b') + (s * s) * c * (si * si + co * co))%R; [ring|]. rewrite S, E. field.
  - intros y Hy A B. unfold cat. destruct (eqb_spec y x0); [contradiction|]. destruct (eqb_spec y x1); [contradiction|]. reflexivity.
Qed.
Lemma best_value : best_fidelity idx x0 x1 rho (/ 2 * (Re (rho x0 x0) + Re (rho x1 x1)) + Cmod (rho x0 x1)).
Proof.
  split.
  - destruct (align (rho x0 x1)) as (t & E). exists t. rewrite cat_form, E. reflexivity.
  - intros t. rewrite cat_form. apply Rplus_le_compat_l. apply Rle_trans with (Cmod (Cmult (expi t) (rho x0 x1))); [apply Re_le_Cmod|]. rewrite Cmod_mult, Cmod_expi. lra.
Qed.
Lemma best_unique f g : best_fidelity idx x0 x1 rho f -> best_fidelity idx x0 x1 rho g -> f = g.
Proof. intros [[t E] L] [[t' E'] L']. specialize (L t'). specialize (L' t). lra. Qed.

(** Populations and coherence of a state. *)
Lemma diag_real x : In x idx -> rho x x = RtoC (Re (rho x x)).
Proof. intros Hx. symmetry. apply real_of. apply (st_herm idx rho Hs x x Hx Hx). Qed.
Lemma two_pos a b : (0 <= Re (fadd (fadd (fmul (fmul (Cconj a) (rho x0 x0)) a) (fmul (fmul (Cconj a) (rho x0 x1)) b))
    (fadd (fmul (fmul (Cconj b) (rho x1 x0)) a) (fmul (fmul (Cconj b) (rho x1 x1)) b))))%R.
Proof.
  pose proof (st_pos idx rho Hs (fun x => if eqb x x0 then a else if eqb x x1 then b else f0)) as P. rewrite form_two in P.
  - destruct (eqb_spec x0 x0) as [_|E] in P; [|congruence]. destruct (eqb_spec x1 x0) as [E|_] in P; [congruence|]. destruct (eqb_spec x1 x1) as [_|E] in P; [|congruence]. exact P.
  - intros y Hy A B. destruct (eqb_spec y x0); [contradiction|]. destruct (eqb_spec y x1); [contradiction|]. reflexivity.
Qed.
Lemma pop_nonneg : (0 <= Re (rho x0 x0))%R /\ (0 <= Re (rho x1 x1))%R.
Proof.
  split.
  - pose proof (two_pos f1 f0) as P. toC. cbn in P. ring_simplify in P. exact P.
  - pose proof (two_pos f0 f1) as P. toC. cbn in P. ring_simplify in P. exact P.
Qed.
(** Cauchy-Schwarz, in the form needed. *)
Lemma coherence_le : (2 * Cmod (rho x0 x1) <= Re (rho x0 x0) + Re (rho x1 x1))%R.
Proof.
  destruct (align (Copp (rho x0 x1))) as (t & E). rewrite Cmod_opp in E. pose proof (two_pos f1 (expi t)) as P. rewrite (st_herm idx rho Hs x1 x0) in P by assumption.
  pose proof (sin2_cos2 t) as S. unfold Rsqr in S. destruct (rho x0 x0) as [a a'], (rho x0 x1) as [b b'], (rho x1 x1) as [c c']. toC. cbn in *. set (m := Cmod (b, b')) in *. set (co := cos t) in *. set (si := sin t) in *.
  replace c with (c * (si * si + co * co))%R by (rewrite S; ring). lra.
Qed.
End Cat.

(** ** Roots of unity *)
Lemma expi_pow t k : expi (INR k * t) = fpow (expi t) k.
Proof. symmetry. apply fpow_expi. Qed.
Lemma expi_2PI k : expi (2 * PI * IZR k) = RtoC 1.
Proof.
  unfold expi. assert (Ev : forall j : nat, cos (2 * PI * INR j) = 1%R /\ sin (2 * PI * INR j) = 0%R).
  { intros j. pose proof (cos_period 0 j) as A. pose proof (sin_period 0 j) as B. replace (2 * PI * INR j)%R with (0 + 2 * INR j * PI)%R by ring. rewrite A, B, cos_0, sin_0. auto. }
  destruct (Z_le_gt_dec 0 k) as [H|H].
  - replace (IZR k) with (INR (Z.to_nat k)) by (rewrite INR_IZR_INZ, Z2Nat.id by exact H; reflexivity). destruct (Ev (Z.to_nat k)) as [-> ->]. reflexivity.
  - replace (2 * PI * IZR k)%R with (- (2 * PI * INR (Z.to_nat (- k))))%R by (rewrite INR_IZR_INZ, Z2Nat.id, opp_IZR by lia; ring). rewrite cos_neg, sin_neg. destruct (Ev (Z.to_nat (- k))) as [-> ->]. unfold RtoC. f_equal. ring.
Qed.
Lemma expi_one t : expi t = RtoC 1 -> exists k, t = (2 * PI * IZR k)%R.
Proof.
  intros H. assert (Hc : cos t = 1%R) by (apply (f_equal fst) in H; exact H). assert (Hsn : sin (t / 2) = 0%R).
  { pose proof (cos_2a_sin (t / 2)) as E. replace (2 * (t / 2))%R with t in E by field. rewrite Hc in E. nra. }
  apply sin_eq_0_0 in Hsn. destruct Hsn as (k & E). exists k. lra.
Qed.
Lemma geometric (z : C) N : fmul (fadd z (Copp (RtoC 1))) (fsum (map (fun j => fpow z j) (seq 0 N))) = fadd (fpow z N) (Copp (RtoC 1)).
Proof.
  induction N as [|N IH]; [cbn [seq map fpow]; rewrite fsum_nil; toC; ring|]. rewrite seq_S, map_app, fsum_app. cbn [map Nat.add]. rewrite fsum_cons, fsum_nil. toC. 
  change (fpow z (S N)) with (Cmult z (fpow z N)). set (s := fsum (map (fun j => fpow z j) (seq 0 N))) in *. set (p := fpow z N) in *.
  transitivity (Cplus (Cmult (Cplus z (Copp (RtoC 1))) s) (Cmult (Cplus z (Copp (RtoC 1))) p)); [ring|]. rewrite IH. ring.
Qed.
Lemma fpow_1 n : fpow (RtoC 1) n = RtoC 1.
Proof. induction n as [|n IH]; [reflexivity|]. cbn [fpow]. rewrite IH. toC. ring. Qed.
Lemma fsum_const {A} (c : C) (l : list A) : fsum (map (fun _ => c) l) = fmul (RtoC (INR (length l))) c.
Proof. induction l as [|a l IH]; [cbn [map length INR]; rewrite fsum_nil; toC; ring|]. cbn [map length]. rewrite fsum_cons, IH, S_INR, RtoC_plus. toC. ring. Qed.
Lemma roots_sum N (d : Z) : 0 < N -> fsum (map (fun j => expi (2 * PI * INR j / INR N * IZR d)) (seq 0 N)) =
  if (d mod Z.of_nat N =? 0)%Z then RtoC (INR N) else f0.
Proof.
  intros HN. assert (HNR : INR N <> 0%R) by (apply not_0_INR; lia). set (z := expi (2 * PI * IZR d / INR N)).
  rewrite (fsum_map_ext _ (fun j => fpow z j)) by (intros j _; unfold z; rewrite <- expi_pow; f_equal; field; exact HNR).
  destruct (Z.eqb_spec (d mod Z.of_nat N) 0) as [E|E].
  - apply Z_div_exact_full_2 in E; [|lia]. assert (Hz : z = RtoC 1). { unfold z. rewrite E, mult_IZR, <- INR_IZR_INZ. rewrite <- (expi_2PI (d / Z.of_nat N)). f_equal. field. exact HNR. }
    rewrite (fsum_map_ext _ (fun _ => RtoC 1)) by (intros; rewrite Hz; apply fpow_1). rewrite fsum_const, seq_length. toC. ring.
  - pose proof (geometric z N) as G. assert (HzN : fpow z N = RtoC 1) by (unfold z; rewrite <- expi_pow, <- (expi_2PI d); f_equal; field; exact HNR).
    rewrite HzN in G. replace (fadd (RtoC 1) (Copp (RtoC 1))) with (@f0 C _) in G by (toC; ring). apply fmul_eq_0 in G. destruct G as [G|G]; [|exact G]. exfalso. apply E.
    assert (Hz : z = RtoC 1). { toC. replace z with (Cplus (Cplus z (Copp (RtoC 1))) (RtoC 1)) by ring. rewrite G. ring. }
    apply expi_one in Hz. destruct Hz as (k & Hk). assert (Hd : IZR d = (IZR k * INR N)%R).
    { pose proof PI_RGT_0. apply (Rmult_eq_reg_l (2 * PI / INR N)); [|apply Rmult_integral_contrapositive_currified; [lra|apply Rinv_neq_0_compat, HNR]]. transitivity (2 * PI * IZR d / INR N)%R; [field; exact HNR|]. rewrite Hk. field. exact HNR. }
    rewrite INR_IZR_INZ, <- mult_IZR in Hd. apply eq_IZR in Hd. rewrite Hd. apply Z_mod_mult.
Qed.

(** ** The transform of a sampled signal *)
Lemma nth_error_seq_map {B} (f : nat -> B) N k : k < N -> nth_error (map f (seq 0 N)) k = Some (f k).
Proof. intros H. rewrite nth_error_map, (nth_error_nth' (seq 0 N) 0) by (rewrite seq_length; exact H). rewrite seq_nth by exact H. reflexivity. Qed.
Lemma combine_sampled N (g : R -> R) : combine (seq 0 (length (sampled N g))) (sampled N g) = map (fun j => (j, g (2 * PI * INR j / INR N)%R)) (seq 0 N).
Proof.
  unfold sampled. rewrite map_length, seq_length. generalize (seq 0 N) at 1 2 3. intros l. induction l as [|a l IH]; [reflexivity|]. cbn [map combine]. rewrite IH. reflexivity.
Qed.
Lemma length_sampled N g : length (sampled N g) = N.
Proof. unfold sampled. rewrite map_length, seq_length. reflexivity. Qed.
(** A signal that is a sum of harmonics. *)
Definition harmonics {K} (g : R -> R) (ks : list K) (c : K -> C) (d : K -> Z) : Prop :=
  forall phi, RtoC (g phi) = fsum (map (fun k => fmul (c k) (expi (IZR (d k) * phi))) ks).
Definition component {K} (N k : nat) (ks : list K) (c : K -> C) (d : K -> Z) : C :=
  fsum (map (fun q => if ((d q - Z.of_nat k) mod Z.of_nat N =? 0)%Z then c q else f0) ks).
Lemma fft_component {K} N (g : R -> R) (ks : list K) c d : 0 < N -> harmonics g ks c d ->
  exists l, np_fft (sampled N g) = Ok l /\ length l = N /\ forall k, k < N -> nth_error (map (fmul (RtoC (1 / INR N))) l) k = Some (component N k ks c d).
Proof.
  intros HN Hg. assert (HNR : INR N <> 0%R) by (apply not_0_INR; lia). unfold np_fft. rewrite combine_sampled, length_sampled. destruct (Nat.eqb_spec N 0) as [E|_]; [lia|]. eexists. split; [reflexivity|]. split; [rewrite map_length, seq_length; reflexivity|].
  intros k Hk. rewrite map_map, nth_error_seq_map by exact Hk. f_equal. rewrite map_map. cbn [fst snd]. unfold component.
  rewrite (fsum_map_ext _ (fun j => fsum (map (fun q => fmul (c q) (expi (2 * PI * INR j / INR N * IZR (d q - Z.of_nat k)))) ks))).
  - rewrite fsum_swap, <- fsum_map_mul. apply fsum_map_ext. intros q _. rewrite fsum_map_mul, roots_sum by exact HN. destruct (_ =? 0)%Z; toC; [|ring].
    unfold Rdiv. rewrite Rmult_1_l, RtoC_inv by exact HNR. assert (RtoC (INR N) <> RtoC 0) by (intros E; apply (f_equal fst) in E; exact (HNR E)). field. assumption.
  - intros j _. rewrite Hg, <- fsum_map_mul_r. apply fsum_map_ext. intros q _. replace (2 * PI * INR j / INR N * IZR (d q - Z.of_nat k))%R with (IZR (d q) * (2 * PI * INR j / INR N) + - (2 * PI * INR j * INR k / INR N))%R by (rewrite minus_IZR, <- INR_IZR_INZ; field; exact HNR).
    rewrite expi_add. toC. ring.
Qed.
