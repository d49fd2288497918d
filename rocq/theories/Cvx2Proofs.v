(** The loop of the convex fit, its result, and its result on exact data (C72). *)
From Coq Require Import QArith Reals Lra NArith.
From Coquelicot Require Import Coquelicot.
From Verif Require Import LinAlg Base ResultFacts CountsModel QSem DihedralModel RBSeqModel RBSeqSpec CtmpSpec StdGates AccSpec AccProbProofs EntSpec.
From Verif Require Import TomoModel TomoSpec TomoFitModel TomoFitSpec TomoPsdSpec TomoPtrSpec TomoCircProofs TomoLayerProofs TomoTensorProofs TomoBasisProofs TomoBornProofs TomoDataProofs TomoCompleteProofs TomoFitProofs TomoPoolSpec TomoPoolProofs.
From Verif Require Import CvxModel CvxSpec CvxProofs.
Local Open Scope list_scope.
Local Open Scope nat_scope.
Add Field FldFieldCvx2 : (fth (F:=C)).

(** * The loop *)
Section Loop.
Variable solve : cvx_problem -> option pystr -> N -> result (status * variables).
Variables (p : cvx_problem) (sv : option pystr) (mx : N).

Lemma attempts_spec : forall fuel it, (0 < it)%N -> (mx <= it * 2 ^ N.of_nat fuel)%N ->
  exists k, (forall j, j < k -> exists x, solve p sv (it * 2 ^ N.of_nat j)%N = Ok (UnboundedInaccurate, x) /\ (it * 2 ^ N.of_nat j < mx)%N) /\
  (forall e, solve p sv (it * 2 ^ N.of_nat k)%N = Err e -> attempts solve (S fuel) p sv mx it = Err e) /\
  (forall s x, solve p sv (it * 2 ^ N.of_nat k)%N = Ok (s, x) ->
    (accepted s -> attempts solve (S fuel) p sv mx it = Ok x) /\
    (~ accepted s -> attempts solve (S fuel) p sv mx it = Err RuntimeError /\ (s = UnboundedInaccurate -> (mx <= it * 2 ^ N.of_nat k)%N))).
Proof.
  assert (Z : forall it : N, (it * 2 ^ N.of_nat 0 = it)%N) by (intros it; cbn; lia).
  assert (S2 : forall (it : N) j, (it * 2 ^ N.of_nat (S j) = it * 2 * 2 ^ N.of_nat j)%N) by (intros it j; rewrite Nat2N.inj_succ, N.pow_succ_r'; lia).
  assert (D : forall s : status, accepted s \/ s = UnboundedInaccurate \/ s = Infeasible \/ s = Unbounded \/ s = OtherStatus) by (intros []; unfold accepted; auto 8).
  induction fuel as [|fuel IH]; intros it Hit Hle.
  - exists 0. rewrite Z in *. split; [intros j Hj; lia|]. cbn [attempts]. split; [intros e ->; reflexivity|]. intros s x ->. cbn [bind fst snd].
    split; [intros [->| ->]; reflexivity|]. intros Hn. assert (L : (it <? mx)%N = false) by (apply N.ltb_ge; exact Hle). rewrite L.
    destruct (D s) as [A|[->|[->|[->| ->]]]]; [contradiction|auto|split; [reflexivity|discriminate]..].
  - destruct (solve p sv it) as [[s x]|e] eqn:E.
    + destruct s; try (exists 0; rewrite Z; split; [intros j Hj; lia|]; cbn [attempts]; rewrite E; split; [discriminate|]; intros s' x' E'; injection E' as <- <-; cbn [bind fst snd];
        split; [intros [A|A]; try discriminate; reflexivity|]; intros Hn; first [exfalso; apply Hn; unfold accepted; tauto|split; [reflexivity|discriminate]]).
      destruct (N.ltb_spec it mx) as [L|L].
      * rewrite S2 in Hle. destruct (IH (it * 2)%N ltac:(lia) Hle) as (k & A & B & C). exists (S k). split.
        -- intros [|j] Hj; [rewrite Z; eauto|]. rewrite S2. apply A. lia.
        -- rewrite S2. change (attempts solve (S (S fuel)) p sv mx it) with (do sx <- solve p sv it;
             match fst sx with Optimal | OptimalInaccurate => Ok (snd sx) | UnboundedInaccurate => if (it <? mx)%N then attempts solve (S fuel) p sv mx (it * 2)%N else Err RuntimeError | _ => Err RuntimeError end).
           rewrite E. cbn [bind fst snd]. apply N.ltb_lt in L. rewrite L. split; [exact B|exact C].
      * exists 0. rewrite Z. split; [intros j Hj; lia|]. cbn [attempts]. rewrite E. split; [discriminate|]. intros s' x' E'. injection E' as <- <-. cbn [bind fst snd]. apply N.ltb_ge in L. rewrite L.
        split; [intros [A|A]; discriminate|]. intros _. split; [reflexivity|]. intros _. apply N.ltb_ge, L.
    + exists 0. rewrite Z. split; [intros j Hj; lia|]. cbn [attempts]. rewrite E. split; [intros e' E'; injection E' as <-; reflexivity|discriminate].
Qed.
End Loop.
Lemma size_enough (mx : N) : (mx <= 5000 * 2 ^ N.of_nat (N.size_nat mx))%N.
Proof.
  assert (H : N.of_nat (N.size_nat mx) = N.size mx) by (destruct mx as [|q]; [reflexivity|]; cbn; induction q; cbn; rewrite ?Pos.of_nat_succ; try lia; reflexivity).
  rewrite H. pose proof (N.size_gt mx). nia.
Qed.

Lemma shapes_ok dim data rows w (tp : bool) : fits dim data rows w -> (tp = true -> exists s, s * s = dim) ->
  length (nth 0 rows []) = dim * dim /\
  (dim * dim =? dim * dim) && forallb (fun r : list C => length r =? dim * dim) rows && (length data =? length rows) &&
  match w with Some w => length w =? length rows | None => true end && (if tp then Nat.sqrt dim * Nat.sqrt dim =? dim else true) = true.
Proof.
  intros (Hr & Hl & Hd & Hw) Hs. split; [destruct rows as [|r rows]; [congruence|]; inversion Hl; auto|].
  rewrite Nat.eqb_refl, Hd, Nat.eqb_refl. rewrite (proj2 (forallb_forall _ rows)) by (intros r Hin; apply Nat.eqb_eq; rewrite Forall_forall in Hl; auto). cbn [andb].
  destruct w as [w|]; [destruct Hw as [Hw _]; rewrite Hw, Nat.eqb_refl|]; cbn [andb]; (destruct tp; [|reflexivity]); destruct (Hs eq_refl) as (s & <-); rewrite Nat.sqrt_square; apply Nat.eqb_refl.
Qed.
Lemma fit_loop solve installed kw mk dim data rows w positive trace tp : fits dim data rows w -> (tp = true -> exists s, s * s = dim) ->
  let mx := match mk with Some m => m | None => 20000%N end in
  cvx_fit solve installed kw mk data rows w positive trace tp =
  (do x <- attempts solve (S (N.size_nat mx)) (cvx_problem_of dim data rows w positive trace tp) (pick_solver kw installed) mx 5000%N;
   Ok {| m_rows := dim; m_cols := dim; m_at := matrix_of x |}).
Proof.
  intros Hf Hs mx. destruct (shapes_ok dim data rows w tp Hf Hs) as [E1 E2]. unfold cvx_fit. rewrite E1, Nat.sqrt_square, E2. reflexivity.
Qed.

(** * The result *)
Lemma fit_optimum solve installed kw mk dim data rows w positive trace tp m : fits dim data rows w -> (tp = true -> exists s, s * s = dim) ->
  solves solve (cvx_problem_of dim data rows w positive trace tp) -> cvx_fit solve installed kw mk data rows w positive trace tp = Ok m ->
  exists x, m = {| m_rows := dim; m_cols := dim; m_at := matrix_of x |} /\ optimum (cvx_problem_of dim data rows w positive trace tp) x.
Proof.
  intros Hf Hs Hsol E. rewrite (fit_loop solve installed kw mk dim) in E by assumption. inv_bind E. injection E as <-. rename v into x. exists x. split; [reflexivity|].
  set (mx := match mk with Some m => m | None => 20000%N end) in *. destruct (attempts_spec solve (cvx_problem_of dim data rows w positive trace tp) (pick_solver kw installed) mx (N.size_nat mx) 5000%N ltac:(lia) (size_enough mx)) as (k & _ & B & C).
  destruct (solve _ _ (5000 * 2 ^ N.of_nat k)%N) as [[s y]|e] eqn:Es; [|rewrite (B e eq_refl) in E0; discriminate].
  destruct (C s y eq_refl) as [C1 C2]. assert (D : accepted s \/ ~ accepted s) by (unfold accepted; destruct s; auto; right; intros [|]; discriminate).
  destruct D as [A|A]; [|rewrite (proj1 (C2 A)) in E0; discriminate]. rewrite (C1 A) in E0. injection E0 as <-. exact (Hsol _ _ _ _ Es A).
Qed.
Lemma matrix_vars m i j : matrix_of (vars_of m) i j = m i j.
Proof. unfold matrix_of, vars_of. cbn. symmetry. apply surjective_pairing. Qed.
Lemma vec_ext dim m m' : (forall i j, m i j = m' i j) -> vec dim m = vec dim m'.
Proof. intros H. unfold vec. apply map_ext. intros k. apply H. Qed.
Lemma physical_ext dim positive trace tp m m' : (forall i j, m i j = m' i j) -> physical dim positive trace tp m -> physical dim positive trace tp m'.
Proof.
  intros H (A & B & C & D). split; [intros i j Hi Hj; rewrite <- !H; auto|]. split.
  - intros Hp u. destruct (B Hp u) as (r & Hr & E). exists r. split; [exact Hr|]. rewrite <- E. apply fsum_map_ext. intros a _. apply fsum_map_ext. intros b _. now rewrite H.
  - split; [intros t Ht; rewrite <- (C t Ht); unfold ctrace; apply fsum_map_ext; intros; now rewrite H|]. intros Ht s Hs r c Hr Hc. rewrite <- (D Ht s Hs r c Hr Hc). unfold trace_second. apply fsum_map_ext. intros. now rewrite H.
Qed.
Lemma fit_best solve installed kw mk dim data rows w positive trace tp m : fits dim data rows w -> (tp = true -> exists s, s * s = dim) ->
  solves solve (cvx_problem_of dim data rows w positive trace tp) -> cvx_fit solve installed kw mk data rows w positive trace tp = Ok m ->
  m_rows m = dim /\ m_cols m = dim /\ physical dim positive trace tp (m_at m) /\
  forall m', physical dim positive trace tp m' ->
  (residual_re (fst (fit_system rows data w)) (snd (fit_system rows data w)) (vec dim (m_at m)) <= residual_re (fst (fit_system rows data w)) (snd (fit_system rows data w)) (vec dim m'))%R.
Proof.
  intros Hf Hs Hsol E. destruct (fit_optimum solve installed kw mk dim data rows w positive trace tp m Hf Hs Hsol E) as (x & -> & Ha & Ho). cbn [m_rows m_cols m_at].
  apply admissible_iff in Ha; [|exact Hs]. split; [reflexivity|]. split; [reflexivity|]. split; [exact Ha|]. intros m' Hm'.
  assert (Hm : admissible (cvx_problem_of dim data rows w positive trace tp) (vars_of m')) by (apply admissible_iff; [exact Hs|]; eapply physical_ext; [|exact Hm']; intros; symmetry; apply matrix_vars).
  specialize (Ho _ Hm). destruct Hf as (Hr & Hl & _ & Hw). cbn [p_obj cvx_problem_of] in Ho. rewrite !objective_re in Ho by exact Hl. apply residual_order in Ho; [|assumption..].
  rewrite (vec_ext dim (matrix_of (vars_of m')) m') in Ho by apply matrix_vars. exact Ho.
Qed.

(** For rows of Hermitian operators the imaginary parts vanish anyway. *)
Lemma dot_hermitian dim B m : m_rows B = dim -> m_cols B = dim -> hermitian dim (m_at B) -> hermitian dim m -> Im (dot (vec_conj B) (vec dim m)) = 0%R.
Proof.
  intros Hr Hc HB Hm. rewrite (dot_vec B dim m Hr Hc).
  match goal with |- Im ?z = _ => assert (E : Cconj z = z) end.
  { assert (G : forall {A} (f : A -> C) l, Cconj (fsum (map f l)) = fsum (map (fun a => Cconj (f a)) l)).
    { intros A f l. induction l as [|a l IH]; [apply cj_0|]. cbn [map]. rewrite !fsum_cons, cj_add, IH. reflexivity. }
    rewrite G. etransitivity; [|apply fsum_swap]. apply fsum_map_ext. intros a Ha. rewrite G. apply fsum_map_ext. intros b Hb. apply in_seq in Ha, Hb.
    rewrite !cj_mul, cj_cj. rewrite (HB b a), (Hm b a) by lia. rewrite ?cj_cj. ring. }
  rewrite (real_of_conj _ E). reflexivity.
Qed.
Lemma residual_same dim rows data w m : expectation_rows dim rows -> hermitian dim m ->
  residual_re (fst (fit_system rows data w)) (snd (fit_system rows data w)) (vec dim m) = residual (fst (fit_system rows data w)) (snd (fit_system rows data w)) (vec dim m).
Proof.
  intros Hr Hm. assert (Hre : Forall (fun r => Im (dot r (vec dim m)) = 0%R) rows).
  { eapply Forall_impl; [|exact Hr]. intros r (B & H1 & H2 & H3 & ->). apply dot_hermitian; assumption. }
  assert (Hre' : Forall (fun r => Im (dot r (vec dim m)) = 0%R) (fst (fit_system rows data w)) /\ Forall (fun y => Im y = 0%R) (snd (fit_system rows data w))).
  { destruct w as [w|]; cbn [fit_system fst snd].
    - split; apply Forall_forall; intros r Hin; apply in_map_iff in Hin; destruct Hin as ([k y] & <- & Hin); cbn [fst snd]; [|reflexivity]. rewrite dot_scale. rewrite Forall_forall in Hre.
      specialize (Hre y (in_combine_r _ _ _ _ Hin)). cbn. unfold Im in Hre. rewrite Hre. ring.
    - split; [exact Hre|]. apply Forall_forall. intros r Hin. apply in_map_iff in Hin. destruct Hin as (y & <- & _). reflexivity. }
  destruct Hre' as [H1 H2]. unfold residual_re, residual. apply rs_ext. intros [r y] Hin. cbn [fst snd]. rewrite Forall_forall in H1, H2. specialize (H1 r (in_combine_l _ _ _ _ Hin)). specialize (H2 y (in_combine_r _ _ _ _ Hin)).
  unfold sqmod, fsub, fadd, fopp. destruct (dot r (vec dim m)) as [a b]. destruct y as [c e]. cbn in *. subst. ring.
Qed.

(** * Exact data *)
Lemma psd_ext dim m m' : same_entries dim m m' -> psd dim m -> psd dim m'.
Proof. intros H P u. destruct (P u) as (r & Hr & E). exists r. split; [exact Hr|]. rewrite <- E. apply fsum_map_ext. intros a Ha. apply fsum_map_ext. intros b Hb. apply in_seq in Ha, Hb. now rewrite H by lia. Qed.
Lemma form_two dim m a b (t : C) : a < dim -> b < dim -> a <> b ->
  form dim m (fun k => if Nat.eqb a k then f1 else if Nat.eqb b k then t else f0) = fadd (fadd (m a a) (fmul (fmul t (Cconj t)) (m b b))) (fadd (fmul t (m a b)) (fmul (Cconj t) (m b a))).
Proof.
  intros Ha Hb Hab. unfold form. set (u := fun k => if Nat.eqb a k then f1 else if Nat.eqb b k then t else f0).
  assert (U : forall (g : nat -> C), fsum (map (fun k => fmul (g k) (u k)) (seq 0 dim)) = fadd (g a) (fmul (g b) t)).
  { intros g. transitivity (fadd (fsum (map (fun k => if Nat.eqb a k then g k else f0) (seq 0 dim))) (fsum (map (fun k => if Nat.eqb b k then fmul (g k) t else f0) (seq 0 dim)))).
    - rewrite <- fsum_map_add. apply fsum_map_ext. intros k _. unfold u. destruct (Nat.eqb_spec a k) as [<-|]; [destruct (Nat.eqb_spec b a); [congruence|]; ring|]. destruct (Nat.eqb_spec b k); ring.
    - f_equal; apply (@LinInv.pick_nat C _); lia. }
  rewrite (fsum_map_ext _ (fun k => fmul (Cconj (u k)) (fadd (m k a) (fmul (m k b) t)))).
  2:{ intros k _. rewrite <- (U (fun j => m k j)), <- fsum_map_mul. apply fsum_map_ext. intros. fold (u k). match goal with H : In ?z _ |- _ => fold (u z) end. ring. }
  transitivity (fadd (fadd (m a a) (fmul (m a b) t)) (fmul (Cconj t) (fadd (m b a) (fmul (m b b) t)))); [|ring].
  transitivity (fadd (fsum (map (fun k => if Nat.eqb a k then fadd (m k a) (fmul (m k b) t) else f0) (seq 0 dim))) (fsum (map (fun k => if Nat.eqb b k then fmul (Cconj t) (fadd (m k a) (fmul (m k b) t)) else f0) (seq 0 dim)))).
  - rewrite <- fsum_map_add. apply fsum_map_ext. intros k _. unfold u. destruct (Nat.eqb_spec a k) as [<-|]; [destruct (Nat.eqb_spec b a); [congruence|]; rewrite cj_1; ring|]. destruct (Nat.eqb_spec b k); [ring|rewrite cj_0; ring].
  - f_equal; apply ((@LinInv.pick_nat C _)); lia.
Qed.

Lemma form_one dim m a : a < dim -> form dim m (fun k => if Nat.eqb a k then f1 else f0) = m a a.
Proof.
  intros Ha. unfold form.
  rewrite (fsum_map_ext _ (fun k => if Nat.eqb a k then m k k else f0)); [apply (@LinInv.pick_nat C _ dim a (fun k => m k k)); exact Ha|].
  intros k _. rewrite (fsum_map_ext _ (fun j => if Nat.eqb a j then (if Nat.eqb a k then m k j else f0) else f0)).
  - rewrite (@LinInv.pick_nat C _ dim a (fun j => if Nat.eqb a k then m k j else f0)) by exact Ha. destruct (Nat.eqb_spec a k) as [<-|]; reflexivity.
  - intros j _. destruct (Nat.eqb a k), (Nat.eqb a j); rewrite ?cj_1, ?cj_0; ring.
Qed.
Lemma psd_hermitian dim m : psd dim m -> hermitian dim m.
Proof.
  intros P. assert (Pr : forall u, Im (form dim m u) = 0%R) by (intros u; destruct (P u) as (r & _ & E); unfold form; rewrite E; reflexivity).
  assert (Pd : forall a, a < dim -> Im (m a a) = 0%R) by (intros a Ha; rewrite <- (form_one dim m a Ha); apply Pr).
  intros a b Ha Hb. destruct (Nat.eq_dec a b) as [<-|Hab]; [pose proof (Pd a Ha) as D; destruct (m a a) as [aa ab]; cbn in D; subst; unfold Cconj; cbn; now rewrite Ropp_0|].
  pose proof (Pr (fun k => if Nat.eqb a k then f1 else if Nat.eqb b k then f1 else f0)) as H1. pose proof (Pr (fun k => if Nat.eqb a k then f1 else if Nat.eqb b k then Ci else f0)) as H2.
  rewrite form_two in H1, H2 by assumption. pose proof (Pd a Ha) as Da. pose proof (Pd b Hb) as Db.
  destruct (m a a) as [aa aa'], (m b b) as [bb bb'], (m a b) as [x y], (m b a) as [x' y']. cbn in *. unfold Cconj. cbn. apply injective_projections; cbn; lra.
Qed.

Lemma residual_re_cons a b x p q : residual_re (p :: a) (q :: b) x = ((Re (fsub (dot p x) q)) ^ 2 + residual_re a b x)%R.
Proof. unfold residual_re. cbn [combine map]. rewrite fsum_cons. reflexivity. Qed.
Lemma residual_re_zero rows data w x : good_weights rows w -> length data = length rows ->
  (residual_re (fst (fit_system rows data w)) (snd (fit_system rows data w)) x <= 0)%R <-> Forall2 (fun r y => Re (dot r x) = y) rows data.
Proof.
  assert (P : forall a b x, (0 <= residual_re a b x)%R) by (intros; apply residual_re_nonneg).
  assert (S0 : forall a : R, (a ^ 2 <= 0 <-> a = 0)%R) by (intros a; split; [intros H; assert (0 <= a ^ 2)%R by apply pow2_ge_0; assert (E : (a ^ 2 = 0)%R) by lra; rewrite <- Rsqr_pow2 in E; now apply Rsqr_0_uniq|intros ->; lra]).
  assert (K : forall a r, (a ^ 2 + r <= 0 <-> a ^ 2 <= 0 /\ r <= 0)%R \/ (r < 0)%R) by (intros a r; destruct (Rlt_dec r 0); [now right|left]; pose proof (pow2_ge_0 a); split; [intros; split; lra|intros []; lra]).
  assert (Z : forall x, residual_re [] [] x = 0%R) by reflexivity.
  destruct w as [w|]; cbn [fit_system fst snd good_weights].
  - intros [Hl Hp]. revert data w Hl Hp. induction rows as [|r rows IH]; intros [|y data] [|k w] Hl Hp Hd; try discriminate; cbn [combine map].
    + rewrite Z. split; [constructor|intros; lra].
    + inversion Hp as [|? ? Hk Hp']; subst. rewrite residual_re_cons. cbn [fst snd]. rewrite dot_scale.
      assert (E : Re (fsub (fmul (RtoC k) (dot r x)) (RtoC (k * y))) = (k * (Re (dot r x) - y))%R) by (destruct (dot r x) as [u v]; cbn; ring). change Cmult with (@fmul C _). rewrite E.
      injection Hl as Hl. injection Hd as Hd. specialize (IH data w Hl Hp' Hd).
      destruct (K (k * (Re (dot r x) - y))%R (residual_re (map (fun p => map (Cmult (RtoC (fst p))) (snd p)) (combine w rows)) (map (fun p => RtoC (fst p * snd p)) (combine w data)) x)) as [K1|K1]; [|pose proof (P (map (fun p => map (Cmult (RtoC (fst p))) (snd p)) (combine w rows)) (map (fun p => RtoC (fst p * snd p)) (combine w data)) x); lra].
      change (@fmul C _) with Cmult. rewrite K1, S0, IH. split.
      * intros [H1 H2]. constructor; [|exact H2]. apply Rmult_integral in H1. lra.
      * intros H. inversion H; subst. split; [ring|assumption].
  - intros _. revert data. induction rows as [|r rows IH]; intros [|y data] Hd; try discriminate; cbn [map].
    + rewrite Z. split; [constructor|intros; lra].
    + rewrite residual_re_cons. injection Hd as Hd. specialize (IH data Hd).
      assert (E : Re (fsub (dot r x) (RtoC y)) = (Re (dot r x) - y)%R) by (destruct (dot r x) as [u v]; cbn; ring). rewrite E.
      destruct (K (Re (dot r x) - y)%R (residual_re rows (map RtoC data) x)) as [K1|K1]; [|pose proof (P rows (map RtoC data) x); lra].
      rewrite K1, S0, IH. split; [intros [H1 H2]; constructor; [lra|exact H2]|intros H; inversion H; subst; split; [ring|assumption]].
Qed.
Lemma cvx_exact solve installed kw mk dim data rows w positive trace tp X m : fits dim data rows w -> (tp = true -> exists s, s * s = dim) ->
  solves solve (cvx_problem_of dim data rows w positive trace tp) -> physical dim positive trace tp X -> Forall2 (fun r y => dot r (vec dim X) = RtoC y) rows data ->
  (forall D, hermitian dim D -> (forall r, In r rows -> Re (dot r (vec dim D)) = 0%R) -> forall i j, i < dim -> j < dim -> D i j = f0) ->
  cvx_fit solve installed kw mk data rows w positive trace tp = Ok m -> m_rows m = dim /\ m_cols m = dim /\ same_entries dim (m_at m) X.
Proof.
  intros Hf Hs Hsol HX Hsys Hcomp E. destruct (fit_best solve installed kw mk dim data rows w positive trace tp m Hf Hs Hsol E) as (H1 & H2 & H3 & H4). split; [exact H1|]. split; [exact H2|].
  specialize (H4 X HX). destruct Hf as (_ & _ & Hd & Hw).
  assert (HX0 : Forall2 (fun r y => Re (dot r (vec dim X)) = y) rows data) by (clear -Hsys; induction Hsys as [|r y rs ys Ey _ IH]; constructor; [rewrite Ey; reflexivity|exact IH]).
  apply (residual_re_zero rows data w (vec dim X) Hw Hd) in HX0. assert (Hm0 : (residual_re (fst (fit_system rows data w)) (snd (fit_system rows data w)) (vec dim (m_at m)) <= 0)%R) by lra.
  apply (residual_re_zero rows data w (vec dim (m_at m)) Hw Hd) in Hm0. apply (residual_re_zero rows data w (vec dim X) Hw Hd) in HX0.
  assert (HD : forall i j, i < dim -> j < dim -> fsub (m_at m i j) (X i j) = f0).
  { apply (Hcomp (fun i j => fsub (m_at m i j) (X i j))).
    - intros i j Hi Hj. destruct H3 as [H3 _]. destruct HX as [HX _]. rewrite (H3 i j), (HX i j) by assumption. unfold fsub, fadd, fopp. destruct (m_at m j i), (X j i). unfold Cconj. cbn. apply injective_projections; cbn; ring.
    - intros r Hr. rewrite dot_sub. revert Hr Hm0 HX0. generalize (vec dim (m_at m)) (vec dim X). intros u v Hr A. revert Hr. clear -A. induction A as [|r' y rows data Er A IH]; intros Hr B; [destruct Hr|]. inversion B; subst. destruct Hr as [->|Hr]; [|auto].
      transitivity (Re (dot r u) - Re (dot r v))%R; [destruct (dot r u), (dot r v); cbn; ring|lra]. }
  intros i j Hi Hj. specialize (HD i j Hi Hj). transitivity (fadd (fsub (m_at m i j) (X i j)) (X i j)); [ring|]. rewrite HD. ring.
Qed.

(** The rows are those of Hermitian operators. *)
Definition herm2 (m : bool -> bool -> C) : Prop := forall a b, m a b = Cconj (m b a).
Lemma tensor_hermitian ms : Forall herm2 ms -> forall a b, tensor ms a b = Cconj (tensor ms b a).
Proof.
  induction 1 as [|m ms Hm _ IH]; intros [|x a] [|y b]; cbn [tensor]; try (symmetry; apply cj_1). rewrite cj_mul, <- (Hm x y), <- (IH a b). reflexivity.
Qed.
Lemma is_tensor_hermitian op ms : is_tensor op ms -> Forall herm2 ms -> hermitian (2 ^ length ms) (m_at op).
Proof. intros (_ & _ & H) Hh i j Hi Hj. rewrite !H by assumption. now apply tensor_hermitian. Qed.
Lemma kron_hermitian P op a b : m_rows P = a -> m_cols P = a -> m_rows op = b -> m_cols op = b -> hermitian a (m_at P) -> hermitian b (m_at op) -> hermitian (a * b) (m_at (kron (transp P) op)).
Proof.
  intros Ra Ca Rb Cb Ha Hb i j Hi Hj. cbn [kron transp m_at m_rows m_cols]. rewrite Rb, Cb. change Cmult with (@fmul C _). rewrite cj_mul.
  assert (b <> 0) by (intros ->; lia). rewrite (Ha (j / b) (i / b)), (Hb (i mod b) (j mod b)); auto using Nat.mod_upper_bound; apply Nat.div_lt_upper_bound; lia.
Qed.
Lemma sound_herm gmat d m os : sound_meas gmat d -> Forall (fun l => In l (md_labels d)) m -> Forall herm2 (map (fun lo => at2 (md_matrix d (fst lo) (snd lo))) (combine m os)).
Proof.
  intros Hd Hm. apply Forall_forall. intros h Hin. apply in_map_iff in Hin. destruct Hin as ([l o] & <- & Hin). rewrite Forall_forall in Hm. destruct (Hd l (Hm l (in_combine_l _ _ _ _ Hin))) as (V & _ & _ & H). destruct (H o) as (_ & _ & E).
  intros x y. cbn [fst snd]. rewrite !E. change Cmult with (@fmul C _). rewrite cj_mul, cj_cj. ring.
Qed.
Lemma prep_herm gmat pd p : sound_prep gmat pd -> Forall (fun l => In l (pd_labels pd)) p -> Forall herm2 (map (fun l => at2 (pd_matrix pd l)) p).
Proof.
  intros Hd Hp. apply Forall_forall. intros h Hin. apply in_map_iff in Hin. destruct Hin as (l & <- & Hin). rewrite Forall_forall in Hp. destruct (Hd l (Hp l Hin)) as (V & _ & _ & _ & _ & E).
  intros x y. rewrite !E. change Cmult with (@fmul C _). rewrite cj_mul, cj_cj. ring.
Qed.

(** * The Choi matrix of a circuit that keeps norms keeps traces *)
Definition ip (N : nat) (p q : amp C) : C := fsum (map (fun x => fmul (p x) (Cconj (q x))) (cube N)).
Lemma norm_two N p q (t : C) : RtoC (norm2 N (fun x => fsum (map (fun b : bool => fmul (if b then t else f1) (if b then q x else p x)) [false; true]))) =
  fadd (fadd (RtoC (norm2 N p)) (fmul (fmul t (Cconj t)) (RtoC (norm2 N q)))) (fadd (fmul (Cconj t) (ip N p q)) (fmul t (ip N q p))).
Proof.
  rewrite !norm2_C. unfold ip. rewrite <- !fsum_map_mul, <- !fsum_map_add. apply fsum_map_ext. intros x _. cbn [map]. rewrite !fsum_cons, fsum_nil. rewrite !cj_add, !cj_mul, cj_1, cj_0. ring.
Qed.
Lemma ip_conj N p q : ip N q p = Cconj (ip N p q).
Proof.
  unfold ip. generalize (cube N). intros l. induction l as [|x l IH]; [symmetry; apply cj_0|]. cbn [map]. rewrite !fsum_cons, cj_add, IH, cj_mul, cj_cj. f_equal. ring.
Qed.
Lemma iso_ip gmat N c p q : isometric gmat N c -> ip N (run (map (op_of gmat) (gates c)) p) (run (map (op_of gmat) (gates c)) q) = ip N p q.
Proof.
  intros Hiso. set (ops := map (op_of gmat) (gates c)).
  assert (K : forall t, fadd (fmul (Cconj t) (ip N (run ops p) (run ops q))) (fmul t (ip N (run ops q) (run ops p))) = fadd (fmul (Cconj t) (ip N p q)) (fmul t (ip N q p))).
  { intros t. pose proof (norm_two N p q t) as E1. pose proof (norm_two N (run ops p) (run ops q) t) as E2.
    assert (E : norm2 N (fun x => fsum (map (fun b : bool => fmul (if b then t else f1) (if b then run ops q x else run ops p x)) [false; true])) = norm2 N (fun x => fsum (map (fun b : bool => fmul (if b then t else f1) (if b then q x else p x)) [false; true]))).
    { rewrite <- (Hiso (fun x => fsum (map (fun b : bool => fmul (if b then t else f1) (if b then q x else p x)) [false; true]))). apply norm2_ext. intros x Hx. symmetry.
      etransitivity; [apply (run_sum ops [false; true] (fun b : bool => if b then t else f1) (fun b x => if b then q x else p x) N x Hx)|]. reflexivity. }
    rewrite E, E1 in E2. unfold ops in E2. rewrite !Hiso in E2. fold ops in E2. match goal with E : fadd ?a ?b = fadd ?a ?d |- _ => transitivity (fsub (fadd a d) a); [ring|]; rewrite <- E; ring end. }
  pose proof (K f1) as K1. pose proof (K Ci) as K2. rewrite !(ip_conj N (run ops p) (run ops q)), !(ip_conj N p q) in K1, K2.
  destruct (ip N (run ops p) (run ops q)) as [a b], (ip N p q) as [a' b']. unfold Ci, Cconj in K1, K2. cbn in K1, K2. injection K1 as K1 K1'. injection K2 as K2 K2'. apply injective_projections; cbn; lra.
Qed.
Lemma reduced_trace2 N qs (p q : amp C) : NoDup qs -> Forall (fun q => q < N) qs -> fsum (map (fun i => reduced Cconj N qs p q (lebits (length qs) i) (lebits (length qs) i)) (seq 0 (2 ^ length qs))) = ip N p q.
Proof.
  intros Hqs Hlt. rewrite (fsum_lebits (length qs) (fun z => reduced Cconj N qs p q z z)). unfold ip. rewrite <- (fsum_classes N qs (fun x => fmul (p x) (Cconj (q x)))). apply fsum_map_ext. intros z Hz. apply in_cube in Hz.
  unfold reduced. apply fsum_map_ext. intros x Hx. apply in_cube in Hx. destruct (eqb_spec (rd qs x) z) as [<-|]; [|reflexivity]. rewrite wr_rd; auto. intros j Hj. rewrite Hx. rewrite Forall_forall in Hlt. auto.
Qed.
Lemma ip_basis N pqs a b : NoDup pqs -> Forall (fun q => q < N) pqs -> length a = length pqs -> length b = length pqs -> ip N (basis_state N pqs a) (basis_state N pqs b) = if eqb a b then f1 else f0.
Proof.
  intros Hp Hplt Ha Hb. assert (W : forall a, length a = length pqs -> rd pqs (wr pqs a (repeat false N)) = a).
  { intros z Hz. apply rd_wr; auto. intros q Hq. rewrite repeat_length. rewrite Forall_forall in Hplt. auto. }
  unfold ip, basis_state. set (y := wr pqs a (repeat false N)). set (y' := wr pqs b (repeat false N)).
  transitivity (fsum (map (fun x => if eqb y x then (if eqb a b then f1 else f0) else f0) (cube N))).
  - apply fsum_map_ext. intros x _. destruct (eqb_spec x y) as [->|Nx].
    + rewrite eqb_refl. destruct (eqb_spec y y') as [E|E].
      * assert (a = b) as <- by (rewrite <- (W a Ha), <- (W b Hb); fold y y'; now rewrite E). rewrite eqb_refl, cj_1. ring.
      * destruct (eqb_spec a b) as [<-|]; [exfalso; apply E; reflexivity|]. rewrite cj_0. ring.
    + destruct (eqb_spec y x) as [E|]; [congruence|]. ring.
  - apply (fsum_pick (cube N) y (fun _ => if eqb a b then f1 else f0)); [apply cube_NoDup|apply in_cube; unfold y; now rewrite length_wr, repeat_length].
Qed.
Lemma choi_tp gmat N c pqs qs r k : NoDup qs -> Forall (fun q => q < N) qs -> NoDup pqs -> Forall (fun q => q < N) pqs -> length pqs = length qs -> isometric gmat N c ->
  r < 2 ^ length qs -> k < 2 ^ length qs -> trace_second (2 ^ length qs) (choi_of gmat N c pqs qs) r k = if r =? k then RtoC 1 else RtoC 0.
Proof.
  intros Hqs Hlt Hp Hplt Hlen Hiso Hr Hk. unfold trace_second, choi_of. set (n := length qs) in *.
  set (out := fun i => run (map (op_of gmat) (gates c)) (basis_state N pqs (lebits n i))).
  transitivity (fsum (map (fun i => reduced Cconj N qs (out r) (out k) (lebits n i) (lebits n i)) (seq 0 (2 ^ n)))).
  - apply fsum_map_ext. intros j Hj. apply in_seq in Hj.
    assert (D : forall r, (r * 2 ^ n + j) / 2 ^ n = r /\ (r * 2 ^ n + j) mod 2 ^ n = j) by (intros r'; split; [rewrite Nat.div_add_l by lia; rewrite Nat.div_small by lia; lia|rewrite Nat.add_comm, Nat.mod_add by lia; apply Nat.mod_small; lia]).
    destruct (D r) as [-> ->]. destruct (D k) as [-> ->]. reflexivity.
  - unfold n. rewrite reduced_trace2 by assumption. unfold out. rewrite iso_ip by assumption. rewrite ip_basis by (try assumption; rewrite length_lebits; symmetry; exact Hlen).
    destruct (Nat.eqb_spec r k) as [<-|Hn]; [now rewrite eqb_refl|]. destruct (eqb_spec (lebits n r) (lebits n k)) as [E|]; [|reflexivity].
    exfalso. apply Hn. rewrite <- (num_lebits n r Hr), <- (num_lebits n k Hk). now rewrite E.
Qed.

(** * State and process tomography *)
Section Main.
Variable gmat : pystr -> list Q -> bits -> bits -> C.
Variable lstsq : list (list C) -> list C -> list C.
Variable eigh : cmat -> (nat -> R) * (nat -> nat -> C).
Variable solve : cvx_problem -> option pystr -> N -> result (status * variables).
Variables (installed : list pystr) (kw : option pystr) (mk : option N).
Variables has_sdp_solver has_sdp_solver_not_scs : bool.
Variables (N : nat) (c : list cinstr) (qs : list nat) (b : tbasis) (d : meas_data) (f : fitter).
Hypothesis Hne : qs <> [].
Hypothesis Hqs : NoDup qs.
Hypothesis Hlt : Forall (fun q => q < N) qs.
Hypothesis Hc : only_gates c.
Hypothesis Hf : ft_meas f = Some b.
Hypothesis Hb : tb_meas b = Some d.
Hypothesis Hd : sound_meas gmat d.
Variables (weighted : bool) (beta : R).
Hypothesis Hbeta : (0 <= beta)%R.
Variable ls : list pystr.
Hypothesis HS : site_complete (list_prod ls [false; true]) (fun lo => at2 (md_matrix d (fst lo) (snd lo))).
Hypothesis Hls : incl ls (md_labels d).
Notation n := (length qs).

Lemma accepted_ok dim data rows w positive trace tp : fits dim data rows w -> (tp = true -> exists s, s * s = dim) ->
  (exists s x, solve (cvx_problem_of dim data rows w positive trace tp) (pick_solver kw installed) 5000%N = Ok (s, x) /\ accepted s) ->
  exists m, cvx_fit solve installed kw mk data rows w positive trace tp = Ok m.
Proof.
  intros Hfi Hs (s & x & E & A). rewrite (fit_loop solve installed kw mk dim) by assumption. cbn [attempts]. rewrite E. cbn [bind fst snd]. destruct A as [-> | ->]; cbn [bind]; eauto.
Qed.

Lemma state_physical : norm2 N (final gmat N c) <> 0%R -> physical (2 ^ n) true (Some 1%R) false (state_of gmat N c qs).
Proof.
  intros Hnz. pose proof (state_psd gmat N qs Hqs Hlt c Hnz) as P. split; [now apply psd_hermitian|]. split; [intros _; exact P|]. split; [|discriminate].
  intros t E. injection E as <-. apply state_trace; assumption.
Qed.
Lemma state_cvx (method : fit_method) : method = MCvx \/ method = MAuto /\ has_sdp_solver_not_scs = true ->
  exact_state_data gmat N c qs d (ft_data f) -> covers_states n ls (ft_data f) -> norm2 N (final gmat N c) <> 0%R ->
  exists data rows w, fitter_data f weighted beta = Ok (data, rows, w) /\ fits (2 ^ n) data rows w /\
  let P := cvx_problem_of (2 ^ n) data rows w true (Some 1%R) false in
  state_fit lstsq eigh (cvx_fit solve installed kw mk) has_sdp_solver_not_scs f method weighted beta = cvx_fit solve installed kw mk data rows w true (Some 1%R) false /\
  (solves solve P -> forall rho, state_fit lstsq eigh (cvx_fit solve installed kw mk) has_sdp_solver_not_scs f method weighted beta = Ok rho ->
     m_rows rho = 2 ^ n /\ m_cols rho = 2 ^ n /\ same_entries (2 ^ n) (m_at rho) (state_of gmat N c qs)).
Proof.
  intros Hmeth Hex Hcov Hnz.
  destruct (state_system gmat N c qs b d f Hne Hqs Hlt Hc Hf Hb Hd weighted beta Hbeta Hex Hnz) as (data & rows & w & E & Hsys & Hlen & Hrne & Hw & _ & Hblk).
  exists data, rows, w. split; [exact E|].
  assert (Hfi : fits (2 ^ n) data rows w) by (split; [exact Hrne|]; split; [exact Hlen|]; split; [symmetry; exact (Forall2_length' _ _ _ Hsys)|exact Hw]). split; [exact Hfi|]. cbv zeta.
  assert (Ef : state_fit lstsq eigh (cvx_fit solve installed kw mk) has_sdp_solver_not_scs f method weighted beta = cvx_fit solve installed kw mk data rows w true (Some 1%R) false).
  { unfold state_fit, tomography_fit. rewrite E. cbn [bind]. destruct Hmeth as [->|[-> ->]]; reflexivity. }
  split; [exact Ef|]. intros Hsol rho Er. rewrite Ef in Er.
  apply (cvx_exact solve installed kw mk (2 ^ n) data rows w true (Some 1%R) false (state_of gmat N c qs)); auto using state_physical; [discriminate|].
  intros D HD Hre. apply (state_rows_complete n d ls HS D). intros m o Hm Ho. destruct (Hcov m Hm) as (cts & Hin).
  destruct (Hblk _ Hin) as (P & m' & blk & Epm & Hr & Hi). cbn [fst pm_of] in Epm. injection Epm as <- Em'. apply VStr_inj in Em'. subst m'.
  destruct (block_row lstsq eigh (cvx_fit solve installed kw mk) qs d eye1 m blk rows o Hr Hi Ho) as (op & Ht & Hin'). exists op. split; [exact Ht|].
  specialize (Hre _ Hin'). destruct Hm as [Hml Hm]. assert (Hm' : Forall (fun l => In l (md_labels d)) m) by (eapply Forall_impl; [|exact Hm]; intros l; apply Hls).
  assert (Lc : length (map (fun lo => at2 (md_matrix d (fst lo) (snd lo))) (combine m (lebits n o))) = n) by (rewrite map_length, combine_length, length_lebits, Hml; lia).
  pose proof (is_tensor_hermitian _ _ Ht (sound_herm gmat d m (lebits n o) Hd Hm')) as Hh. destruct Ht as (T1 & T2 & _). rewrite Lc in *.
  assert (HB : hermitian (2 ^ n) (m_at (kron (transp eye1) op))).
  { replace (2 ^ n) with (1 * 2 ^ n) by lia. apply kron_hermitian; auto. intros i j _ _. cbn. symmetry. apply cj_1. }
  assert (Him : Im (dot (vec_conj (kron (transp eye1) op)) (vec (2 ^ n) D)) = 0%R) by (apply dot_hermitian; auto; cbn; rewrite ?T1, ?T2; lia).
  destruct (dot (vec_conj (kron (transp eye1) op)) (vec (2 ^ n) D)) as [u v]. cbn in Hre, Him. subst. reflexivity.
Qed.

Variables (pqs : list nat) (pb : tbasis) (pd : prep_data).
Hypothesis Hpqs : NoDup pqs.
Hypothesis Hplt : Forall (fun q => q < N) pqs.
Hypothesis Hlen : length pqs = n.
Hypothesis Hpf : ft_prep f = Some pb.
Hypothesis Hpb : tb_prep pb = Some pd.
Hypothesis Hpd : sound_prep gmat pd.
Variable ps : list pystr.
Hypothesis HP : site_complete ps (fun l => at2 (pd_matrix pd l)).
Hypothesis Hps : incl ps (pd_labels pd).
Notation D := (2 ^ n * 2 ^ n).
Lemma choi_physical : isometric gmat N c -> physical D true (Some (INR (2 ^ n))) true (choi_of gmat N c pqs qs).
Proof.
  intros Hiso. pose proof (choi_psd gmat N qs Hqs Hlt pqs c) as P. split; [now apply psd_hermitian|]. split; [intros _; exact P|]. split.
  - intros t E. injection E as <-. apply choi_trace; assumption.
  - intros _ s Hs r k Hr Hk. assert (s = 2 ^ n) as -> by (clear -Hs; revert Hs; generalize (2 ^ n); intros t Hs; nia). apply choi_tp; auto.
Qed.
Lemma process_cvx (method : fit_method) : method = MCvx \/ method = MAuto /\ has_sdp_solver = true ->
  exact_process_data gmat N c pqs qs pd d (ft_data f) -> covers_processes n ps ls (ft_data f) -> isometric gmat N c ->
  exists data rows w, fitter_data f weighted beta = Ok (data, rows, w) /\ fits D data rows w /\
  let P := cvx_problem_of D data rows w true (Some (INR (2 ^ n))) true in
  process_fit lstsq eigh (cvx_fit solve installed kw mk) has_sdp_solver f method weighted beta = cvx_fit solve installed kw mk data rows w true (Some (INR (2 ^ n))) true /\
  (solves solve P -> forall choi, process_fit lstsq eigh (cvx_fit solve installed kw mk) has_sdp_solver f method weighted beta = Ok choi ->
     m_rows choi = D /\ m_cols choi = D /\ same_entries D (m_at choi) (choi_of gmat N c pqs qs)).
Proof.
  intros Hmeth Hex Hcov Hiso.
  destruct (process_system gmat N c qs b d f Hne Hqs Hlt Hc Hf Hb Hd weighted beta Hbeta pqs pb pd Hpqs Hplt Hlen Hpf Hpb Hpd Hex Hiso) as (data & rows & w & E & Hsys & Hlen' & Hrne & Hw & _ & Hblk).
  exists data, rows, w. split; [exact E|].
  assert (Hfi : fits D data rows w) by (split; [exact Hrne|]; split; [exact Hlen'|]; split; [symmetry; exact (Forall2_length' _ _ _ Hsys)|exact Hw]). split; [exact Hfi|]. cbv zeta.
  assert (Ef : process_fit lstsq eigh (cvx_fit solve installed kw mk) has_sdp_solver f method weighted beta = cvx_fit solve installed kw mk data rows w true (Some (INR (2 ^ n))) true).
  { unfold process_fit. rewrite E. cbn [bind].
    assert (El : length (nth 0 rows []) = D * D) by (destruct rows as [|r rows']; [congruence|]; inversion Hlen'; subst; assumption).
    rewrite El, Nat.sqrt_square, Nat.sqrt_square.
    assert (E4 : (2 ^ n) ^ 4 =? D * D = true) by (apply Nat.eqb_eq; cbn [Nat.pow]; rewrite Nat.mul_1_r, !Nat.mul_assoc; reflexivity). rewrite E4. cbn [negb].
    destruct Hmeth as [->|[-> ->]]; reflexivity. }
  split; [exact Ef|]. intros Hsol choi Er. rewrite Ef in Er.
  apply (cvx_exact solve installed kw mk D data rows w true (Some (INR (2 ^ n))) true (choi_of gmat N c pqs qs)); auto using choi_physical; [eauto|].
  intros X HX Hre. apply (process_rows_complete n d ls HS pd ps HP X). intros p m o Hp Hm Ho. destruct (Hcov p m Hp Hm) as (cts & Hin).
  destruct (Hblk _ Hin) as (P & m' & blk & Epm & Hr & Hi).
  destruct (preparation_op_tensor pb pd Hpb) with (p := p) as (P' & EP & TP); [intros l Hl0; destruct (Hpd l Hl0) as (V & _ & _ & ? & ? & _); auto|eapply Forall_impl; [|apply (proj2 Hp)]; intros l Hl; apply Hps; exact Hl|].
  unfold pm_of in Epm. cbn [fst elements bind index_e nth_error] in Epm. rewrite Hpf, EP in Epm. cbn [bind] in Epm. injection Epm as <- Em'. apply VStr_inj in Em'. subst m'.
  destruct (block_row lstsq eigh (cvx_fit solve installed kw mk) qs d P' m blk rows o Hr Hi Ho) as (op & Ht & Hin'). exists P', op. split; [exact TP|]. split; [exact Ht|].
  specialize (Hre _ Hin'). destruct Hm as [Hml Hm]. destruct Hp as [Hpl Hp]. assert (Hm' : Forall (fun l => In l (md_labels d)) m) by (eapply Forall_impl; [|exact Hm]; intros l; apply Hls).
  assert (Hp' : Forall (fun l => In l (pd_labels pd)) p) by (eapply Forall_impl; [|exact Hp]; intros l; apply Hps).
  assert (Lc : length (map (fun lo => at2 (md_matrix d (fst lo) (snd lo))) (combine m (lebits n o))) = n) by (rewrite map_length, combine_length, length_lebits, Hml; lia).
  assert (Lp : length (map (fun l => at2 (pd_matrix pd l)) p) = n) by (now rewrite map_length).
  pose proof (is_tensor_hermitian _ _ Ht (sound_herm gmat d m (lebits n o) Hd Hm')) as Hh. destruct Ht as (T1 & T2 & _). rewrite Lc in *.
  pose proof (is_tensor_hermitian _ _ TP (prep_herm gmat pd p Hpd Hp')) as Hh'. destruct TP as (T1' & T2' & _). rewrite Lp in *.
  assert (HB : hermitian D (m_at (kron (transp P') op))) by (apply kron_hermitian; auto).
  assert (Him : Im (dot (vec_conj (kron (transp P') op)) (vec D X)) = 0%R) by (apply dot_hermitian; auto; cbn; rewrite ?T1, ?T2, ?T1', ?T2'; reflexivity).
  destruct (dot (vec_conj (kron (transp P') op)) (vec D X)) as [u v]. cbn in Hre, Him. subst. reflexivity.
Qed.
End Main.

(** On exact data the matrix that made them is an optimum. *)
Lemma exact_optimum dim data rows w positive trace tp X : fits dim data rows w -> (tp = true -> exists s, s * s = dim) ->
  physical dim positive trace tp X -> Forall2 (fun r y => dot r (vec dim X) = RtoC y) rows data -> optimum (cvx_problem_of dim data rows w positive trace tp) (vars_of X).
Proof.
  intros (Hr & Hl & Hd & Hw) Hs HX Hsys. split; [apply admissible_iff; [exact Hs|]; eapply physical_ext; [|exact HX]; intros; symmetry; apply matrix_vars|].
  intros y _. cbn [p_obj cvx_problem_of]. rewrite !objective_re by exact Hl. apply residual_order; [assumption..|].
  assert (HX0 : Forall2 (fun r y => Re (dot r (vec dim X)) = y) rows data) by (clear -Hsys; induction Hsys as [|r y rs ys Ey _ IH]; constructor; [rewrite Ey; reflexivity|exact IH]).
  apply (residual_re_zero rows data w (vec dim X) Hw Hd) in HX0. rewrite (vec_ext dim (matrix_of (vars_of X)) X) by apply matrix_vars. pose proof (residual_re_nonneg (fst (fit_system rows data w)) (snd (fit_system rows data w)) (vec dim (matrix_of y))). lra.
Qed.
Lemma tp_trace s m : (forall r c, r < s -> c < s -> trace_second s m r c = if r =? c then RtoC 1 else RtoC 0) -> ctrace (s * s) m = RtoC (INR s).
Proof.
  intros H. unfold ctrace. transitivity (fsum (map (fun k => (fun a b => m (b * s + a) (b * s + a)) (k mod s) (k / s)) (seq 0 (s * s)))).
  - apply fsum_map_ext. intros k Hk. apply in_seq in Hk. assert (s <> 0) by (intros ->; lia). replace (k / s * s + k mod s) with k by (pose proof (Nat.div_mod k s); lia). reflexivity.
  - rewrite (fsum_divmod (fun a b => m (b * s + a) (b * s + a))). rewrite (fsum_map_ext _ (fun _ => RtoC 1)).
    + clear H. generalize 0. induction s as [|s IH]; intros a; [reflexivity|]. cbn [seq map]. rewrite fsum_cons, IH, S_INR, RtoC_plus. change (Cplus ?a ?b) with (fadd a b). ring.
    + intros r Hr. apply in_seq in Hr. specialize (H r r ltac:(lia) ltac:(lia)). rewrite Nat.eqb_refl in H. exact H.
Qed.
Lemma trace_conflict solve installed kw mk s data rows w positive t : fits (s * s) data rows w -> t <> INR s ->
  solves solve (cvx_problem_of (s * s) data rows w positive (Some t) true) -> forall m, cvx_fit solve installed kw mk data rows w positive (Some t) true <> Ok m.
Proof.
  intros Hf Ht Hsol m E. assert (Hs : true = true -> exists s0, s0 * s0 = s * s) by eauto.
  destruct (fit_best solve installed kw mk (s * s) data rows w positive (Some t) true m Hf Hs Hsol E) as (_ & _ & (_ & _ & Tr & Tp) & _).
  specialize (Tr t eq_refl). rewrite (tp_trace s (m_at m)) in Tr by (intros; apply Tp; auto). apply RtoC_inj in Tr. congruence.
Qed.
Lemma shapes_refused solve installed kw mk data rows w positive trace (tp : bool) : let cols := length (nth 0 rows []) in
  (~ exists dim, dim * dim = cols) \/ ~ Forall (fun r => length r = cols) rows \/ length data <> length rows \/ (exists w', w = Some w' /\ length w' <> length rows) \/ (tp = true /\ ~ exists s, (s * s) * (s * s) = cols) ->
  cvx_fit solve installed kw mk data rows w positive trace tp = Err ValueError.
Proof.
  intros cols H. unfold cvx_fit. fold cols. match goal with |- context[negb ?b] => destruct b eqn:E end; [exfalso|reflexivity].
  apply andb_prop in E. destruct E as [E E5]. apply andb_prop in E. destruct E as [E E4]. apply andb_prop in E. destruct E as [E E3]. apply andb_prop in E. destruct E as [E1 E2]. apply Nat.eqb_eq in E1, E3.
  destruct H as [H|[H|[H|[(w' & -> & H)|[-> H]]]]].
  - eauto.
  - apply H. apply Forall_forall. intros r Hr. rewrite forallb_forall in E2. apply Nat.eqb_eq. auto.
  - congruence.
  - apply Nat.eqb_eq in E4. congruence.
  - apply Nat.eqb_eq in E5. apply H. exists (Nat.sqrt (Nat.sqrt cols)). rewrite E5. exact E1.
Qed.
