(** Ideal outcomes of the coherence and calibration circuits. *)
From Coq Require Import QArith Reals Lra.
From Coquelicot Require Import Coquelicot.
From Verif Require Import Base LinAlg QSem PyStr DihedralModel RBSeqModel RBSeqSpec StdGates AccSpec AccLayerProofs EmbedProofs TomoFitSpec TomoLayerProofs.
From Verif Require Import EntSpec CtmpSpec EntMqcProofs CharModel CharSpec CharProdProofs.
Local Open Scope list_scope.
Local Open Scope nat_scope.

(** Complex exponentials. *)
Lemma expi_add a b : expi (a + b) = Cmult (expi a) (expi b).
Proof. unfold expi, Cmult. cbn. rewrite cos_plus, sin_plus. f_equal; ring. Qed.
Lemma expi_0 : expi 0 = RtoC 1.
Proof. unfold expi. rewrite cos_0, sin_0. reflexivity. Qed.
Lemma expi_PI : expi PI = Copp (RtoC 1).
Proof. unfold expi. rewrite cos_PI, sin_PI. apply injective_projections; cbn; ring. Qed.
Lemma expi_PI2 : expi (PI / 2) = Ci.
Proof. unfold expi. rewrite cos_PI2, sin_PI2. reflexivity. Qed.
Lemma expi_inv a : Cmult (expi a) (expi (- a)) = RtoC 1.
Proof. rewrite <- expi_add. replace (a + - a)%R with 0%R by ring. apply expi_0. Qed.
Lemma sqmod_expi a : sqmod (expi a) = 1%R.
Proof. unfold sqmod, expi. cbn. pose proof (sin2_cos2 a) as E. unfold Rsqr in E. lra. Qed.
Lemma sqmod_Ci : sqmod (Copp Ci) = 1%R. Proof. unfold sqmod. cbn. ring. Qed.
Lemma sqmod_Ci' : sqmod Ci = 1%R. Proof. unfold sqmod. cbn. ring. Qed.
Lemma sqmod_1 : sqmod (RtoC 1) = 1%R. Proof. unfold sqmod. cbn. ring. Qed.

Definition hs : C := RtoC (/ sqrt 2).
Lemma hs_sq : Cmult hs hs = RtoC (/ 2).
Proof.
  unfold hs. rewrite <- RtoC_mult. f_equal. rewrite <- Rinv_mult_distr by (apply Rgt_not_eq; apply sqrt_lt_R0; lra). rewrite sqrt_sqrt by lra. reflexivity.
Qed.
Lemma cos_PI4' : cos (PI / 2 / 2) = (/ sqrt 2)%R.
Proof. replace (PI / 2 / 2)%R with (PI / 4)%R by field. rewrite cos_PI4. field. apply Rgt_not_eq, sqrt_lt_R0. lra. Qed.
Lemma sin_PI4' : sin (PI / 2 / 2) = (/ sqrt 2)%R.
Proof. replace (PI / 2 / 2)%R with (PI / 4)%R by field. rewrite sin_PI4. field. apply Rgt_not_eq, sqrt_lt_R0. lra. Qed.

Section Moves.
Variable gmat : pystr -> list Q -> bits -> bits -> C.
Notation ops body := (map (op_of gmat) (gates body)).

(** A block on one qubit takes the state [u] of that qubit to [v], up to a phase. *)
Definition moves (body : list cinstr) (q : nat) (u v : bool -> C) : Prop :=
  exists V k, acts (ops body) q V /\ sqmod k = 1%R /\ forall b, col V u b = Cmult k (v b).

Lemma moves_nil q u : moves [] q u u.
Proof.
  exists one2, (RtoC 1). split; [apply acts_nil|]. split; [apply sqmod_1|]. intros b. unfold col, one2. destruct b; cbn [Bool.eqb]; cbn; apply injective_projections; cbn; ring.
Qed.
Lemma moves_app b1 b2 q u v w : moves b1 q u v -> moves b2 q v w -> moves (b1 ++ b2) q u w.
Proof.
  intros (V & k & A & Hk & E) (V' & k' & A' & Hk' & E'). exists (mul2 V' V), (Cmult k k'). split; [|split].
  - rewrite gates_app, map_app. apply acts_app; assumption.
  - rewrite sqmod_mul, Hk, Hk'. ring.
  - intros b. transitivity (Cmult k (col V' v b)); [|rewrite E'; cbn; ring].
    unfold col, mul2. cbn. unfold col in E. cbn in E. transitivity (Cplus (Cmult (V' b false) (Cmult k (v false))) (Cmult (V' b true) (Cmult k (v true)))); [|ring].
    rewrite <- !E. ring.
Qed.
Lemma moves_ext body q u v u' v' : (forall b, u b = u' b) -> (forall b, v b = v' b) -> moves body q u v -> moves body q u' v'.
Proof. intros Eu Ev (V & k & A & Hk & E). exists V, k. split; [exact A|]. split; [exact Hk|]. intros b. rewrite <- Ev, <- E. unfold col. rewrite !Eu. reflexivity. Qed.
Lemma moves_gate name ps q u v k : sqmod k = 1%R ->
  (forall b, Cplus (Cmult (gmat (str name) ps [b] [false]) (u false)) (Cmult (gmat (str name) ps [b] [true]) (u true)) = Cmult k (v b)) ->
  moves [gate1 name ps q] q u v.
Proof. intros Hk E. exists (fun a b => gmat (str name) ps [a] [b]), k. split; [apply acts_gate|]. split; [exact Hk|]. exact E. Qed.
Lemma moves_bar qs q u v body : moves body q u v -> moves (CBarrier qs :: body) q u v.
Proof. intros H. exact H. Qed.
Lemma moves_cons i body q u v w : moves [i] q u v -> moves body q v w -> moves (i :: body) q u w.
Proof. apply (moves_app [i]). Qed.
Lemma moves_times n body q (v : nat -> bool -> C) : (forall k, moves body q (v k) (v (S k))) -> moves (times n body) q (v 0) (v n).
Proof.
  intros H. assert (G : forall n k, moves (times n body) q (v k) (v (k + n))); [|apply (G n 0)].
  induction n0 as [|m IH]; intros k; [rewrite Nat.add_0_r; apply moves_nil|]. unfold times. cbn [repeat concat]. apply (moves_app _ _ _ _ (v (S k))); [apply H|].
  replace (k + S m) with (S k + m) by lia. apply IH.
Qed.

(** Blocks on distinct qubits. *)
Definition up_to_phase (f v : bool -> C) : Prop := exists k, sqmod k = 1%R /\ forall b, f b = Cmult k (v b).
Lemma utp_refl v : up_to_phase v v.
Proof. exists (RtoC 1). split; [apply sqmod_1|]. intros b. ring. Qed.
Lemma utp_sqmod f v b : up_to_phase f v -> sqmod (f b) = sqmod (v b).
Proof. intros (k & Hk & E). rewrite E, sqmod_mul, Hk. ring. Qed.
Lemma utp_move body q f u v N psi : q < N -> moves body q u v -> up_to_phase (f q) u -> is_prod N psi f ->
  exists g, up_to_phase g v /\ is_prod N (run (ops body) psi) (upd f q g).
Proof.
  intros Hq (V & k & A & Hk & E) (k' & Hk' & E') Hp. exists (col V (f q)). split; [|apply prod_acts; assumption].
  exists (Cmult k' k). split; [rewrite sqmod_mul, Hk, Hk'; ring|]. intros b. transitivity (Cmult k' (col V u b)); [|rewrite E; ring]. unfold col. cbn. rewrite !E'. ring.
Qed.
Lemma layer N (blk : nat -> list cinstr) qs u v : NoDup qs -> Forall (fun q => q < N) qs -> (forall q, In q qs -> moves (blk q) q u v) ->
  forall psi f, is_prod N psi f -> (forall q, In q qs -> up_to_phase (f q) u) ->
  exists f', is_prod N (run (ops (flat_map blk qs)) psi) f' /\ (forall q, In q qs -> up_to_phase (f' q) v) /\ forall q, ~ In q qs -> f' q = f q.
Proof.
  intros Hn Hlt. induction qs as [|q qs IH]; intros Hm psi f Hp Hu.
  - exists f. split; [exact Hp|]. split; [intros q []|reflexivity].
  - inversion Hn; subst. inversion Hlt; subst. cbn [flat_map]. rewrite gates_app, map_app, run_app.
    destruct (utp_move (blk q) q f u v N psi) as (g & Hg & Hp'); auto; [apply Hm; left; reflexivity|apply Hu; left; reflexivity|].
    destruct (IH H2 H4 (fun q' Hq' => Hm q' (or_intror Hq')) _ _ Hp') as (f' & A & B & D).
    + intros q' Hq'. rewrite upd_ne by (intros ->; contradiction). apply Hu. right; exact Hq'.
    + exists f'. split; [exact A|]. split.
      * intros q' [<-|Hq']; [|apply B; exact Hq']. rewrite D by assumption. rewrite upd_eq. exact Hg.
      * intros q' Hq'. rewrite D by (intros Hi; apply Hq'; right; exact Hi). apply upd_ne. intros ->. apply Hq'. left; reflexivity.
Qed.

(** From product states to distributions. *)
Lemma reads_only m (pre : list cinstr) post y : Forall (fun i => is_measure i = false) pre -> reads m (pre ++ post) y = reads m post y.
Proof.
  intros H. unfold reads. rewrite fold_left_app. f_equal. induction H as [|i pre Hi H IH] in |- *; [reflexivity|]. cbn. destruct i; try exact IH. discriminate.
Qed.
Lemma law_of N qs (pre : list cinstr) f v w : qubits_ok N qs -> Forall (fun i => is_measure i = false) pre ->
  is_prod N (run (ops pre) (ground N)) f -> (forall q, In q qs -> up_to_phase (f q) v) ->
  (forall q, q < N -> (sqmod (f q false) + sqmod (f q true) = 1)%R) -> (forall b, sqmod (v b) = w b) ->
  outcome_law gmat N qs (pre ++ measure_list qs) w.
Proof.
  intros [Hn Hlt] Hpre Hp Hv Hs Hw os Hl.
  assert (Hf : is_prod N (final gmat N (pre ++ measure_list qs)) f).
  { unfold final. rewrite gates_app. replace (gates (measure_list qs)) with (@nil ginstr); [rewrite app_nil_r; exact Hp|]. unfold measure_list. clear. generalize (seq 0 (length qs)). induction qs as [|q qs IH]; intros [|j l]; cbn; auto. }
  rewrite (prod_law gmat sqmod sqmod_weighing N qs _ f Hn Hlt); auto.
  - assert (E : forall l ol, (forall q, In q l -> In q qs) -> length ol = length l -> fold_right fmul f1 (map (fun qo => sqmod (f (fst qo) (snd qo))) (combine l ol)) = fold_right (fun o p => (w o * p)%R) 1%R ol).
    { induction l as [|q l IH]; intros [|o ol] Hi Ho; try discriminate; [reflexivity|]. cbn [combine map fold_right fst snd]. rewrite IH by (auto; intros; apply Hi; right; assumption).
      rewrite (utp_sqmod _ v) by (apply Hv, Hi; left; reflexivity). rewrite Hw. reflexivity. }
    apply E; auto.
  - intros y Hy. rewrite reads_only by exact Hpre. apply reads_pat.
Qed.
End Moves.
