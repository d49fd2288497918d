(** The least-squares fit of exact data returns the state or the channel (C62). *)
From Coq Require Import QArith Reals Lra.
From Coquelicot Require Import Coquelicot.
From Verif Require Import LinAlg Base ResultFacts CountsModel QSem DihedralModel RBSeqModel RBSeqSpec CtmpSpec StdGates AccSpec AccProbProofs EntSpec.
From Verif Require Import TomoModel TomoSpec TomoFitModel TomoFitSpec TomoPsdSpec TomoCircProofs TomoLayerProofs TomoTensorProofs TomoBasisProofs TomoBornProofs TomoDataProofs TomoCompleteProofs.
Local Open Scope list_scope.
Local Open Scope nat_scope.
Add Field FldFieldCF : (fth (F:=C)).

(** * Least squares with a solution *)
Lemma sqmod_nonneg z : (0 <= sqmod z)%R. Proof. unfold sqmod. destruct z. cbn. nra. Qed.
Lemma sqmod_zero z : sqmod z = 0%R -> z = f0.
Proof. unfold sqmod. destruct z as [a b]. cbn. intros E. apply injective_projections; cbn; nra. Qed.
Lemma fsum_nonneg {A} (f : A -> R) l : (forall a, In a l -> (0 <= f a)%R) -> (0 <= fsum (HF:=Fld_R) (map f l))%R.
Proof. induction l as [|a l IH]; intros H; [apply Rle_refl|]. cbn [map]. rewrite fsum_cons. apply Rplus_le_le_0_compat; [apply H; now left|apply IH; intros; apply H; now right]. Qed.
Lemma fsum_nonneg_zero {A} (f : A -> R) l : (forall a, In a l -> (0 <= f a)%R) -> (fsum (HF:=Fld_R) (map f l) <= 0)%R -> forall a, In a l -> f a = 0%R.
Proof.
  induction l as [|b l IH]; intros H E a Ha; [destruct Ha|]. cbn [map] in E. rewrite fsum_cons in E.
  assert (0 <= f b)%R by (apply H; now left). assert (0 <= fsum (HF:=Fld_R) (map f l))%R by (apply fsum_nonneg; intros; apply H; now right).
  change (f b + fsum (HF:=Fld_R) (map f l) <= 0)%R in E. destruct Ha as [<-|Ha]; [lra|]. apply IH; auto; [intros; apply H; now right|lra].
Qed.
Lemma residual_nonneg a b x : (0 <= residual a b x)%R.
Proof. apply fsum_nonneg. intros. apply sqmod_nonneg. Qed.
Lemma residual_exact a b x : Forall2 (fun r y => dot r x = y) a b -> residual a b x = 0%R.
Proof.
  intros H. unfold residual. apply (fsum_map_zero' (HF:=Fld_R)). intros [r y] Hin. cbn [fst snd].
  assert (E : dot r x = y) by (revert Hin; induction H as [|r' y' a b E _ IH]; cbn; [tauto|intros [[= <- <-]|Hin]; auto]).
  rewrite E. unfold sqmod. destruct y. cbn. ring.
Qed.
Lemma exact_solution cols a b X : Forall2 (fun r y => dot r X = y) a b -> length X = cols -> forall x, least_squares cols a b x -> Forall2 (fun r y => dot r x = y) a b.
Proof.
  intros H HX x [Hl Hmin]. specialize (Hmin X HX). rewrite (residual_exact a b X H) in Hmin.
  assert (Z := fsum_nonneg_zero _ _ (fun p _ => sqmod_nonneg (fsub (dot (fst p) x) (snd p))) Hmin). clear Hmin.
  induction H as [|r y a b E _ IH]; constructor.
  - specialize (Z (r, y) (or_introl eq_refl)). cbn [fst snd] in Z. apply sqmod_zero in Z. transitivity (fadd (fsub (dot r x) y) y); [ring|rewrite Z; ring].
  - apply IH. intros p Hp. apply Z. now right.
Qed.
Lemma dot_scale k r x : dot (map (Cmult k) r) x = fmul k (dot r x).
Proof.
  unfold dot. revert x. induction r as [|a r IH]; intros [|b x]; cbn [map combine]; rewrite ?fsum_nil, ?fsum_cons; try (ring).
  rewrite IH. cbn [fst snd]. change (Cmult k a) with (fmul k a). ring.
Qed.
Lemma RtoC_neq0 r : (0 < r)%R -> RtoC r <> f0. Proof. intros H E. apply (RtoC_inj r 0) in E. lra. Qed.
Lemma system_iff rows data w x : good_weights rows w ->
  Forall2 (fun r y => dot r x = RtoC y) rows data <-> length rows = length data /\ Forall2 (fun r y => dot r x = y) (fst (fit_system rows data w)) (snd (fit_system rows data w)).
Proof.
  destruct w as [w|]; cbn [fit_system fst snd good_weights].
  - intros [Hl Hp]. revert data w Hl Hp. induction rows as [|r rows IH]; intros [|y data] [|k w] Hl Hp; try discriminate; cbn [combine map]; split; intros H; try (now inversion H); try (destruct H as [H _]; discriminate).
    + inversion H; subst. inversion Hp; subst. destruct (proj1 (IH data w ltac:(cbn in Hl; lia) ltac:(assumption)) ltac:(assumption)) as [A B]. split; [cbn; congruence|]. constructor; [|assumption].
      cbn [fst snd]. rewrite dot_scale. match goal with E : dot r x = _ |- _ => rewrite E end. symmetry. apply RtoC_mult.
    + destruct H as [L H]. inversion H as [|? ? ? ? E H']; subst. inversion Hp; subst. constructor; [|apply (proj2 (IH data w ltac:(cbn in Hl; lia) ltac:(assumption))); split; [cbn in L; congruence|assumption]].
      cbn [fst snd] in E. rewrite dot_scale, RtoC_mult in E. assert (K : RtoC k <> f0) by (apply RtoC_neq0; assumption).
      transitivity (fdiv (fmul (RtoC k) (dot r x)) (RtoC k)); [field; assumption|]. rewrite E. change (Cmult ?a ?b) with (fmul a b). field. assumption.
  - intros _. split.
    + intros H. split; [eapply Forall2_length'; eassumption|]. induction H; constructor; auto.
    + intros [L H]. revert data L H. induction rows as [|r rows IH]; intros [|y data] L H; try discriminate; constructor; inversion H; subst; auto.
Qed.
Lemma vec_nth dim (x : list C) : length x = dim * dim -> vec dim (fun i j => nth (i + j * dim) x (RtoC 0)) = x.
Proof.
  intros Hl. unfold vec. destruct dim as [|dim]; [destruct x; [reflexivity|discriminate]|]. apply nth_ext with (d := RtoC 0) (d' := RtoC 0); [now rewrite map_length, seq_length|].
  intros k Hk. rewrite map_length, seq_length in Hk. rewrite (nth_indep _ (RtoC 0) ((fun k => nth (k mod S dim + k / S dim * S dim) x (RtoC 0)) 0)) by now rewrite map_length, seq_length.
  rewrite (map_nth (fun k => nth (k mod S dim + k / S dim * S dim) x (RtoC 0)) (seq 0 (S dim * S dim)) 0 k), seq_nth by assumption. f_equal. pose proof (Nat.div_mod (0 + k) (S dim)). lia.
Qed.
Lemma length_vec dim X : length (vec dim X) = dim * dim. Proof. unfold vec. now rewrite map_length, seq_length. Qed.
Lemma dot_sub r dim A B : dot r (vec dim (fun i j => fsub (A i j) (B i j))) = fsub (dot r (vec dim A)) (dot r (vec dim B)).
Proof.
  unfold dot, vec. generalize (seq 0 (dim * dim)) as l. revert r. intros r l. revert r. induction l as [|k l IH]; intros [|a r]; cbn [map combine]; rewrite ?fsum_nil, ?fsum_cons; try ring.
  rewrite IH. cbn [fst snd]. ring.
Qed.

(** * Positive matrices *)
Lemma gram_psd dim m (k : R) {A} (l : list A) (g : A -> nat -> C) : (0 <= k)%R ->
  (forall a b, a < dim -> b < dim -> m a b = fmul (RtoC k) (fsum (map (fun x => fmul (g x a) (Cconj (g x b))) l))) -> psd dim m.
Proof.
  intros Hk Hm u. set (s := fun x => fsum (map (fun a => fmul (Cconj (u a)) (g x a)) (seq 0 dim))).
  exists (k * fsum (HF:=Fld_R) (map (fun x => sqmod (s x)) l))%R. split; [apply Rmult_le_pos; [assumption|]; apply fsum_nonneg; intros; apply sqmod_nonneg|].
  rewrite RtoC_mult, RtoC_fsum. change (Cmult ?a ?b) with (fmul a b). rewrite <- fsum_map_mul.
  transitivity (fsum (map (fun a => fsum (map (fun b => fsum (map (fun x => fmul (RtoC k) (fmul (fmul (Cconj (u a)) (g x a)) (fmul (u b) (Cconj (g x b))))) l)) (seq 0 dim))) (seq 0 dim))).
  - apply fsum_map_ext. intros a Ha. apply fsum_map_ext. intros b Hb. apply in_seq in Ha, Hb. rewrite Hm by lia. rewrite !fsum_map_mul.
    transitivity (fmul (fmul (RtoC k) (fmul (Cconj (u a)) (u b))) (fsum (map (fun x => fmul (g x a) (Cconj (g x b))) l))); [ring|]. rewrite <- !fsum_map_mul. apply fsum_map_ext. intros x _. ring.
  - transitivity (fsum (map (fun a => fsum (map (fun x => fsum (map (fun b => fmul (RtoC k) (fmul (fmul (Cconj (u a)) (g x a)) (fmul (u b) (Cconj (g x b))))) (seq 0 dim))) l)) (seq 0 dim))); [apply fsum_map_ext; intros; apply fsum_swap|].
    rewrite fsum_swap. apply fsum_map_ext. intros x _. rewrite sq_cj. unfold s at 2. rewrite (cj_sum Cconj cj_add cj_0).
    unfold s. rewrite <- fsum_map_mul_r, <- fsum_map_mul. apply fsum_map_ext. intros a _. rewrite <- !fsum_map_mul. apply fsum_map_ext. intros b _. rewrite cj_mul, cj_cj. ring.
Qed.
Lemma eigen_nonneg dim m v w : psd dim m -> eigen_of dim m v w -> forall j, j < dim -> (0 <= v j)%R.
Proof.
  intros Hp [Hm Ho] j Hj. destruct (Hp (fun a => w a j)) as (r & Hr & E).
  assert (E' : RtoC (v j) = RtoC r).
  { rewrite <- E. symmetry.
    transitivity (fsum (map (fun k => fmul (RtoC (v k)) (fmul (fsum (map (fun a => fmul (Cconj (w a j)) (w a k)) (seq 0 dim))) (fsum (map (fun b => fmul (Cconj (w b k)) (w b j)) (seq 0 dim))))) (seq 0 dim))).
    - transitivity (fsum (map (fun a => fsum (map (fun b => fsum (map (fun k => fmul (RtoC (v k)) (fmul (fmul (Cconj (w a j)) (w a k)) (fmul (Cconj (w b k)) (w b j)))) (seq 0 dim))) (seq 0 dim))) (seq 0 dim))).
      + apply fsum_map_ext. intros a Ha. apply fsum_map_ext. intros b Hb. apply in_seq in Ha, Hb. rewrite Hm by lia. rewrite <- fsum_map_mul, <- fsum_map_mul_r. apply fsum_map_ext. intros k _. ring.
      + transitivity (fsum (map (fun a => fsum (map (fun k => fsum (map (fun b => fmul (RtoC (v k)) (fmul (fmul (Cconj (w a j)) (w a k)) (fmul (Cconj (w b k)) (w b j)))) (seq 0 dim))) (seq 0 dim))) (seq 0 dim))); [apply fsum_map_ext; intros; apply fsum_swap|].
        rewrite fsum_swap. apply fsum_map_ext. intros k _. rewrite <- fsum_map_mul_r, <- fsum_map_mul. apply fsum_map_ext. intros a _. rewrite <- !fsum_map_mul. apply fsum_map_ext. intros b _. ring.
    - transitivity (fsum (map (fun k => if eqb j k then RtoC (v k) else f0) (seq 0 dim))).
      + apply fsum_map_ext. intros k Hk. apply in_seq in Hk. rewrite !Ho by lia. destruct (eqb_spec j k) as [<-|N]; [rewrite Nat.eqb_refl; ring|].
        destruct (Nat.eqb_spec j k); [congruence|]. ring.
      + apply (fsum_pick (seq 0 dim) j (fun k => RtoC (v k))); [apply seq_NoDup|apply in_seq; lia]. }
  apply (RtoC_inj (v j) r) in E'. lra.
Qed.
Lemma psd_values_id dim v : (forall j, j < dim -> (0 <= v j)%R) -> psd_values 0 dim v = v.
Proof.
  intros H. unfold psd_values. assert (G : forall l, Forall (fun j => j < dim) l -> fold_left (psd_step 0 dim) l v = v).
  { induction l as [|j l IH]; intros Hl; [reflexivity|]. inversion Hl; subst. cbn [fold_left]. unfold psd_step at 2. destruct (Rlt_dec (v j) 0) as [L|_]; [specialize (H j ltac:(assumption)); lra|]. auto. }
  apply G. apply Forall_forall. intros j Hj. apply in_seq in Hj. lia.
Qed.
Lemma csum_fsum l : csum l = fsum l. Proof. induction l as [|a l IH]; [reflexivity|]. rewrite fsum_cons, <- IH. reflexivity. Qed.

(** The fit of a system that has one solution, a positive matrix of trace [t]. *)
Lemma lstsq_exact lstsq eigh dim data rows w X t :
  Forall2 (fun r y => dot r (vec dim X) = RtoC y) rows data -> good_weights rows w ->
  (forall D, (forall r, In r rows -> dot r (vec dim D) = f0) -> forall i j, i < dim -> j < dim -> D i j = f0) ->
  least_squares (dim * dim) (fst (fit_system rows data w)) (snd (fit_system rows data w)) (lstsq (fst (fit_system rows data w)) (snd (fit_system rows data w))) ->
  (forall m, m_rows m = dim -> m_cols m = dim -> same_entries dim (m_at m) X -> eigen_of dim (m_at m) (fst (eigh m)) (snd (eigh m))) ->
  psd dim X -> fsum (map (fun i => X i i) (seq 0 dim)) = RtoC t -> t <> 0%R ->
  exists rho, lstsq_fit lstsq eigh data rows w true (Some t) = Ok rho /\ m_rows rho = dim /\ m_cols rho = dim /\ same_entries dim (m_at rho) X.
Proof.
  intros Hex Hw Hcomp Hls Heig Hpsd Htr Ht. unfold lstsq_fit.
  assert (Esys : (match w with
                   | None => (rows, map RtoC data)
                   | Some w => (map (fun wr => map (Cmult (RtoC (fst wr))) (snd wr)) (combine w rows), map (fun wb => Cmult (RtoC (fst wb)) (snd wb)) (combine w (map RtoC data)))
                   end) = fit_system rows data w).
  { destruct w as [w|]; [|reflexivity]. cbn [fit_system]. f_equal. clear. revert data. induction w as [|k w IH]; intros [|y data]; cbn [map combine]; try reflexivity. rewrite IH. f_equal. cbn [fst snd]. symmetry. apply RtoC_mult. }
  rewrite Esys. destruct (proj1 (system_iff rows data w (vec dim X) Hw) Hex) as [Hlen Hsys].
  pose proof (exact_solution (dim * dim) _ _ (vec dim X) Hsys (length_vec dim X) _ Hls) as Hx. destruct Hls as [Hlx _].
  destruct (fit_system rows data w) as [a b] eqn:Efs. cbn [fst snd] in *. set (x := lstsq a b) in *. clearbody x.
  assert (Hx' : Forall2 (fun r y => dot r x = RtoC y) rows data) by (apply (proj2 (system_iff rows data w x Hw)); rewrite Efs; auto).
  rewrite Hlx, Nat.sqrt_square, Nat.eqb_refl. cbn [negb].
  set (rho0 := {| m_rows := dim; m_cols := dim; m_at := fun i j => nth (i + j * dim) x (RtoC 0) |}).
  assert (Hrho : same_entries dim (m_at rho0) X).
  { intros i j Hi Hj. assert (Z : fsub (m_at rho0 i j) (X i j) = f0).
    { apply (Hcomp (fun i j => fsub (m_at rho0 i j) (X i j))); auto. intros r Hr. rewrite dot_sub. unfold rho0. cbn [m_at]. rewrite vec_nth by assumption.
      clear -Hex Hx' Hr. revert Hex Hx' Hr. revert data. induction rows as [|r' rows IH]; intros data H1 H2 Hr; [destruct Hr|]. inversion H1; subst. inversion H2; subst. destruct Hr as [->|Hr]; [|eapply IH; eassumption].
      match goal with A : dot r (vec dim X) = _, B : dot r x = _ |- _ => rewrite A, B end. ring. }
    transitivity (fadd (fsub (m_at rho0 i j) (X i j)) (X i j)); [ring|rewrite Z; ring]. }
  unfold make_positive_semidefinite. destruct (Rlt_dec 0 0) as [L|_]; [lra|]. cbn [m_rows rho0].
  specialize (Heig rho0 eq_refl eq_refl Hrho). destruct (eigh rho0) as [v u]. cbn [fst snd] in Heig. cbn [bind].
  assert (Hpsd0 : psd dim (m_at rho0)).
  { intros u0. destruct (Hpsd u0) as (r & Hr & E). exists r. split; [assumption|]. rewrite <- E. apply fsum_map_ext. intros a0 Ha. apply fsum_map_ext. intros b0 Hb. apply in_seq in Ha, Hb. rewrite Hrho by lia. reflexivity. }
  rewrite (psd_values_id dim v) by (intros j Hj; eapply eigen_nonneg; eassumption).
  set (rho1 := fun a b => csum (map (fun j => Cmult (RtoC (v j)) (Cmult (u a j) (Cconj (u b j)))) (seq 0 dim))).
  assert (H1 : same_entries dim rho1 X).
  { intros i j Hi Hj. rewrite <- Hrho by assumption. destruct Heig as [Hm _]. rewrite Hm by assumption. unfold rho1. rewrite csum_fsum. reflexivity. }
  eexists. split; [reflexivity|]. cbn [m_rows m_cols m_at]. split; [reflexivity|]. split; [reflexivity|].
  unfold trace_of. cbn [m_rows m_at]. fold rho1.
  assert (T : csum (map (fun i => rho1 i i) (seq 0 dim)) = RtoC t).
  { rewrite csum_fsum, <- Htr. apply fsum_map_ext. intros i Hi. apply in_seq in Hi. apply H1; lia. }
  intros i j Hi Hj. cbv beta. change (csum (map (fun j0 => Cmult (RtoC (v j0)) (Cmult (u i j0) (Cconj (u j j0)))) (seq 0 dim))) with (rho1 i j). rewrite T, (H1 i j Hi Hj).
  change (Cmult ?a (Cdiv ?b ?c)) with (fmul a (fdiv b c)). field. intros E. apply (RtoC_inj t 0) in E. auto.
Qed.

(** * States and channels are positive *)
Section Phys.
Variable gmat : pystr -> list Q -> bits -> bits -> C.
Variables (N : nat) (qs : list nat).
Hypothesis Hqs : NoDup qs.
Hypothesis Hlt : Forall (fun q => q < N) qs.
Notation n := (length qs).

Lemma reduced_gram (p q : amp C) z z' : length z = n -> length z' = n ->
  reduced Cconj N qs p q z z' = fsum (map (fun x => fmul (if eqb (rd qs x) (repeat false n) then p (wr qs z x) else f0) (Cconj (if eqb (rd qs x) (repeat false n) then q (wr qs z' x) else f0))) (cube N)).
Proof.
  intros Hz Hz'. unfold reduced. rewrite <- (fsum_env N qs (repeat false n) z (fun x => fmul (p x) (Cconj (q (wr qs z' x))))); auto using repeat_length.
  apply fsum_map_ext. intros x Hx. apply in_cube in Hx. rewrite (wr_wr_same N) by assumption. destruct (eqb (rd qs x) (repeat false n)); [reflexivity|ring].
Qed.
Lemma reduced_trace (p : amp C) : fsum (map (fun i => reduced Cconj N qs p p (lebits n i) (lebits n i)) (seq 0 (2 ^ n))) = RtoC (norm2 N p).
Proof.
  rewrite (fsum_lebits n (fun z => reduced Cconj N qs p p z z)). rewrite norm2_C, <- (fsum_classes N qs (fun x => fmul (p x) (Cconj (p x)))). apply fsum_map_ext. intros z Hz. apply in_cube in Hz.
  unfold reduced. apply fsum_map_ext. intros x Hx. apply in_cube in Hx. destruct (eqb_spec (rd qs x) z) as [<-|]; [|reflexivity]. rewrite wr_rd; auto. intros q Hq. rewrite Hx. rewrite Forall_forall in Hlt. auto.
Qed.
Lemma norm2_nonneg p : (0 <= norm2 N p)%R.
Proof. apply fsum_nonneg. intros. apply sqmod_nonneg. Qed.

Lemma state_psd c : norm2 N (final gmat N c) <> 0%R -> psd (2 ^ n) (state_of gmat N c qs).
Proof.
  intros Hnz. set (psi := final gmat N c) in *. pose proof (norm2_nonneg psi).
  apply (gram_psd (2 ^ n) _ (/ norm2 N psi)%R (cube N) (fun x i => if eqb (rd qs x) (repeat false n) then psi (wr qs (lebits n i) x) else f0)).
  - left. apply Rinv_0_lt_compat. lra.
  - intros i j _ _. unfold state_of. fold psi. rewrite reduced_gram by apply length_lebits. rewrite RtoC_inv by assumption.
    assert (K : RtoC (norm2 N psi) <> f0) by (intros E; apply Hnz; apply (RtoC_inj _ 0) in E; exact E). change Cinv with (@finv C _). field. assumption.
Qed.
Lemma state_trace c : norm2 N (final gmat N c) <> 0%R -> fsum (map (fun i => state_of gmat N c qs i i) (seq 0 (2 ^ n))) = RtoC 1.
Proof.
  intros Hnz. unfold state_of. set (psi := final gmat N c) in *. set (nu := RtoC (norm2 N psi)).
  assert (K : nu <> f0) by (intros E; apply Hnz; apply (RtoC_inj _ 0) in E; exact E).
  rewrite (fsum_map_ext _ (fun i => fmul (reduced Cconj N qs psi psi (lebits n i) (lebits n i)) (finv nu))) by (intros; field; assumption).
  rewrite fsum_map_mul_r, reduced_trace. fold nu. change (RtoC 1) with (@f1 C _). field. assumption.
Qed.

Variables (pqs : list nat) (c : list cinstr).
Hypothesis Hpqs : NoDup pqs.
Hypothesis Hplt : Forall (fun q => q < N) pqs.
Hypothesis Hlen : length pqs = n.
Notation D := (2 ^ n * 2 ^ n).
Lemma choi_psd : psd D (choi_of gmat N c pqs qs).
Proof.
  set (out := fun i => run (map (op_of gmat) (gates c)) (basis_state N pqs (lebits n i))).
  apply (gram_psd D _ 1%R (cube N) (fun x k => if eqb (rd qs x) (repeat false n) then out (k / 2 ^ n) (wr qs (lebits n (k mod 2 ^ n)) x) else f0)); [lra|].
  intros k l _ _. unfold choi_of. rewrite reduced_gram by apply length_lebits. unfold out. change (RtoC 1) with (@f1 C _). ring.
Qed.
Lemma norm_basis_state i : norm2 N (basis_state N pqs (lebits n i)) = 1%R.
Proof.
  unfold norm2, basis_state. set (y := wr pqs (lebits n i) (repeat false N)).
  transitivity (fsum (HF:=Fld_R) (map (fun x => if eqb y x then 1%R else 0%R) (cube N))).
  - apply fsum_map_ext. intros x _. destruct (eqb_spec x y) as [->|Nx]; [rewrite eqb_refl; unfold sqmod; cbn; ring|]. destruct (eqb_spec y x) as [E|]; [congruence|]. unfold sqmod. cbn. ring.
  - apply (fsum_pick (F:=R) (HF:=Fld_R) (cube N) y (fun _ => 1%R)); [apply cube_NoDup|apply in_cube; unfold y; now rewrite length_wr, repeat_length].
Qed.
Lemma choi_trace : isometric gmat N c -> fsum (map (fun k => choi_of gmat N c pqs qs k k) (seq 0 D)) = RtoC (INR (2 ^ n)).
Proof.
  intros Hiso. set (out := fun i => run (map (op_of gmat) (gates c)) (basis_state N pqs (lebits n i))).
  transitivity (fsum (map (fun k => (fun kr ki => reduced Cconj N qs (out ki) (out ki) (lebits n kr) (lebits n kr)) (k mod 2 ^ n) (k / 2 ^ n)) (seq 0 D))); [reflexivity|].
  rewrite (fsum_divmod (fun kr ki => reduced Cconj N qs (out ki) (out ki) (lebits n kr) (lebits n kr))).
  rewrite (fsum_map_ext _ (fun _ => RtoC 1)).
  - generalize (2 ^ n) as k. intros k. assert (G : forall s, fsum (map (fun _ => RtoC 1) (seq s k)) = RtoC (INR k)); [|apply G]. induction k as [|k IH]; intros s; [reflexivity|]. cbn [seq map]. rewrite fsum_cons, IH. rewrite S_INR, RtoC_plus. change (Cplus ?a ?b) with (fadd a b). ring.
  - intros i _. rewrite reduced_trace. unfold out. rewrite (Hiso (basis_state N pqs (lebits n i))), norm_basis_state. reflexivity.
Qed.
End Phys.

(** * The fits *)
Section Main.
Variable gmat : pystr -> list Q -> bits -> bits -> C.
Variable lstsq : list (list C) -> list C -> list C.
Variable eigh : cmat -> (nat -> R) * (nat -> nat -> C).
Variable cvx_fit : list R -> list (list C) -> option (list R) -> bool -> option R -> bool -> result cmat.
Variables has_sdp_solver has_sdp_solver_not_scs : bool.
Variables (N : nat) (c : list cinstr) (qs : list nat) (b : tbasis) (d : meas_data) (f : fitter).
Hypothesis Hne : qs <> [].
Hypothesis Hqs : NoDup qs.
Hypothesis Hlt : Forall (fun q => q < N) qs.
Hypothesis Hc : only_gates c.
Hypothesis Hf : ft_meas f = Some b.
Hypothesis Hb : tb_meas b = Some d.
Hypothesis Hd : sound_meas gmat d.
Variables (weighted : bool) (beta : R).
Hypothesis Hbeta : (0 <= beta)%R.
Variable ls : list pystr.
Hypothesis HS : site_complete (list_prod ls [false; true]) (fun lo => at2 (md_matrix d (fst lo) (snd lo))).
Notation n := (length qs).

Lemma block_row P m blk rows o : block_rows n P d m blk -> incl blk rows -> o < 2 ^ n ->
  exists op, is_tensor op (map (fun lo => at2 (md_matrix d (fst lo) (snd lo))) (combine m (lebits n o))) /\ In (vec_conj (kron (transp P) op)) rows.
Proof.
  intros H Hi Ho. destruct (Forall2_in_l _ _ _ o H) as (r & Hr & op & Ht & ->); [apply in_seq; lia|]. exists op. auto.
Qed.

Lemma state_fit_exact (method : fit_method) : method = MLstsq \/ method = MAuto /\ has_sdp_solver_not_scs = false ->
  exact_state_data gmat N c qs d (ft_data f) -> covers_states n ls (ft_data f) -> norm2 N (final gmat N c) <> 0%R ->
  (forall data rows w, fitter_data f weighted beta = Ok (data, rows, w) ->
     least_squares (2 ^ n * 2 ^ n) (fst (fit_system rows data w)) (snd (fit_system rows data w)) (lstsq (fst (fit_system rows data w)) (snd (fit_system rows data w)))) ->
  (forall m, m_rows m = 2 ^ n -> m_cols m = 2 ^ n -> same_entries (2 ^ n) (m_at m) (state_of gmat N c qs) -> eigen_of (2 ^ n) (m_at m) (fst (eigh m)) (snd (eigh m))) ->
  exists rho, state_fit lstsq eigh cvx_fit has_sdp_solver_not_scs f method weighted beta = Ok rho /\ m_rows rho = 2 ^ n /\ m_cols rho = 2 ^ n /\
    same_entries (2 ^ n) (m_at rho) (state_of gmat N c qs).
Proof.
  intros Hmeth Hex Hcov Hnz Hls Heig.
  destruct (state_system gmat N c qs b d f Hne Hqs Hlt Hc Hf Hb Hd weighted beta Hbeta Hex Hnz) as (data & rows & w & E & Hsys & _ & _ & Hw & _ & Hblk).
  unfold state_fit, tomography_fit. rewrite E. cbn [bind].
  assert (Em : match method with MAuto => if has_sdp_solver_not_scs then MCvx else MLstsq | m => m end = MLstsq) by (destruct Hmeth as [->|[-> ->]]; reflexivity).
  rewrite Em. apply (lstsq_exact lstsq eigh (2 ^ n) data rows w (state_of gmat N c qs)); auto.
  - intros D HD. apply (state_rows_complete n d ls HS D). intros m o Hm Ho. destruct (Hcov m Hm) as (cts & Hin).
    destruct (Hblk _ Hin) as (P & m' & blk & Epm & Hr & Hi). cbn [fst pm_of] in Epm. injection Epm as <- Em'.
    assert (m' = m) as -> by (clear -Em'; revert m' Em'; induction m as [|x m IH]; intros [|y m'] E; try discriminate; [reflexivity|]; cbn in E; injection E as E1 E2; f_equal; auto).
    destruct (block_row eye1 m blk rows o Hr Hi Ho) as (op & Ht & Hin'). exists op. auto.
  - apply state_psd; assumption.
  - apply state_trace; assumption.
Qed.

Variables (pqs : list nat) (pb : tbasis) (pd : prep_data).
Hypothesis Hpqs : NoDup pqs.
Hypothesis Hplt : Forall (fun q => q < N) pqs.
Hypothesis Hlen : length pqs = n.
Hypothesis Hpf : ft_prep f = Some pb.
Hypothesis Hpb : tb_prep pb = Some pd.
Hypothesis Hpd : sound_prep gmat pd.
Variable ps : list pystr.
Hypothesis HP : site_complete ps (fun l => at2 (pd_matrix pd l)).
Hypothesis Hps : incl ps (pd_labels pd).
Notation D := (2 ^ n * 2 ^ n).

Lemma VStr_inj m m' : map VStr m = map VStr m' -> m = m'.
Proof. revert m'; induction m as [|x m IH]; intros [|y m'] E; try discriminate; [reflexivity|]; cbn in E; injection E as E1 E2; f_equal; auto. Qed.

Lemma process_fit_exact (method : fit_method) : method = MLstsq \/ method = MAuto /\ has_sdp_solver = false ->
  exact_process_data gmat N c pqs qs pd d (ft_data f) -> covers_processes n ps ls (ft_data f) -> isometric gmat N c ->
  (forall data rows w, fitter_data f weighted beta = Ok (data, rows, w) ->
     least_squares (D * D) (fst (fit_system rows data w)) (snd (fit_system rows data w)) (lstsq (fst (fit_system rows data w)) (snd (fit_system rows data w)))) ->
  (forall m, m_rows m = D -> m_cols m = D -> same_entries D (m_at m) (choi_of gmat N c pqs qs) -> eigen_of D (m_at m) (fst (eigh m)) (snd (eigh m))) ->
  exists choi, process_fit lstsq eigh cvx_fit has_sdp_solver f method weighted beta = Ok choi /\ m_rows choi = D /\ m_cols choi = D /\
    same_entries D (m_at choi) (choi_of gmat N c pqs qs).
Proof.
  intros Hmeth Hex Hcov Hiso Hls Heig.
  destruct (process_system gmat N c qs b d f Hne Hqs Hlt Hc Hf Hb Hd weighted beta Hbeta pqs pb pd Hpqs Hplt Hlen Hpf Hpb Hpd Hex Hiso) as (data & rows & w & E & Hsys & Hlen' & Hrne & Hw & _ & Hblk).
  unfold process_fit. rewrite E. cbn [bind].
  assert (El : length (nth 0 rows []) = D * D) by (destruct rows as [|r rows']; [congruence|]; inversion Hlen'; subst; assumption).
  rewrite El, Nat.sqrt_square, Nat.sqrt_square.
  assert (E4 : (2 ^ n) ^ 4 =? D * D = true) by (apply Nat.eqb_eq; cbn [Nat.pow]; rewrite Nat.mul_1_r, !Nat.mul_assoc; reflexivity). rewrite E4. cbn [negb].
  assert (Em : match method with MAuto => if has_sdp_solver then MCvx else MLstsq | m => m end = MLstsq) by (destruct Hmeth as [->|[-> ->]]; reflexivity).
  rewrite Em. apply (lstsq_exact lstsq eigh D data rows w (choi_of gmat N c pqs qs)); auto.
  - intros X HX. apply (process_rows_complete n d ls HS pd ps HP X). intros p m o Hp Hm Ho. destruct (Hcov p m Hp Hm) as (cts & Hin).
    destruct (Hblk _ Hin) as (P & m' & blk & Epm & Hr & Hi).
    destruct (preparation_op_tensor pb pd Hpb) with (p := p) as (P' & EP & TP); [intros l Hl0; destruct (Hpd l Hl0) as (V & _ & _ & ? & ? & _); auto|eapply Forall_impl; [|apply (proj2 Hp)]; intros l Hl; apply Hps; exact Hl|].
    unfold pm_of in Epm. cbn [fst elements bind index_e nth_error] in Epm. rewrite Hpf, EP in Epm. cbn [bind] in Epm. injection Epm as <- Em'. apply VStr_inj in Em'. subst m'.
    destruct (block_row P' m blk rows o Hr Hi Ho) as (op & Ht & Hin'). exists P', op. auto.
  - apply choi_psd; assumption.
  - apply choi_trace; assumption.
  - apply not_0_INR. apply Nat.pow_nonzero. lia.
Qed.
End Main.
