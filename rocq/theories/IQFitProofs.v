(** Fits of the Rabi and DRAG calibrations (C69, C70). *)
From Coq Require Import QArith Reals Lra.
From Coquelicot Require Import Coquelicot.
From Verif Require Import Base LinAlg PyStr ResultFacts CountsModel MeasCalModel CharModel CharEstModel CharEstProofs IQModel IQSpec IQProofs IQProjProofs IQDataProofs.
Local Open Scope list_scope.
Local Open Scope nat_scope.

(** ** Exact data *)
Lemma misfit_nonneg f xs ys es ps : (0 <= misfit f xs ys es ps)%R.
Proof. unfold misfit. induction (combine xs (combine ys es)) as [|[x [y e]] l IH]; cbn [fold_right]; [lra|]. pose proof (pow2_ge_0 ((f x ps - y) / e)). cbn in H. lra. Qed.
Lemma misfit_zero f xs ps (v : R -> R) : (misfit f xs (map v xs) (error_bars xs) ps <= 0)%R <-> forall x, In x xs -> f x ps = v x.
Proof.
  unfold error_bars. induction xs as [|x xs IH]; [split; [intros _ x []|intros _; unfold misfit; cbn; lra]|].
  unfold misfit. cbn [map combine fold_right]. fold (misfit f xs (map v xs) (map (fun _ => (1 / 10000)%R) xs) ps).
  pose proof (misfit_nonneg f xs (map v xs) (map (fun _ => (1 / 10000)%R) xs) ps) as Hr. pose proof (pow2_ge_0 ((f x ps - v x) / (1 / 10000))) as Hp. split.
  - intros Hle x' [<-|Hx'].
    + assert (E : (((f x ps - v x) / (1 / 10000)) ^ 2 = 0)%R) by lra. replace (((f x ps - v x) / (1 / 10000)) ^ 2)%R with (100000000 * ((f x ps - v x) * (f x ps - v x)))%R in E by field. nra.
    + apply IH; [lra|exact Hx'].
  - intros Hx. rewrite (Hx x (or_introl eq_refl)), Rminus_eq_0. unfold Rdiv at 1. rewrite Rmult_0_l, pow_i by lia.
    assert (misfit f xs (map v xs) (map (fun _ => (1 / 10000)%R) xs) ps <= 0)%R by (apply IH; intros x' Hx'; apply Hx; right; exact Hx'). lra.
Qed.
Lemma least_exact cf f xs p0 bounds v par : least_squares cf f xs (map v xs) (error_bars xs) p0 bounds -> in_bounds bounds par -> (forall x, In x xs -> f x par = v x) ->
  exists ps var, cf f xs (map v xs) (error_bars xs) p0 bounds = Ok (ps, var) /\ in_bounds bounds ps /\ forall x, In x xs -> f x ps = v x.
Proof.
  intros (ps & var & E & B & M) Hb Hv. exists ps, var. split; [exact E|]. split; [exact B|]. apply misfit_zero. apply (Rle_trans _ _ _ (M par Hb)). apply misfit_zero. exact Hv.
Qed.
(** ** The data *)
Lemma nth_seq_map (xs : list R) : map (fun k => nth k xs 0%R) (seq 0 (length xs)) = xs.
Proof.
  apply nth_ext with (d := 0%R) (d' := 0%R); [rewrite map_length, seq_length; reflexivity|]. intros k Hk. rewrite map_length, seq_length in Hk.
  rewrite (nth_indep _ _ ((fun k => nth k xs 0%R) 0)) by (rewrite map_length, seq_length; exact Hk). rewrite (map_nth (fun k => nth k xs 0%R)), seq_nth by exact Hk. reflexivity.
Qed.
Lemma pooled_same m rs name q z : averaged_results m rs -> (exists e, In e (concat rs) /\ q_name e = name) -> (forall e, In e (concat rs) -> q_name e = name -> point e q = z) -> pooled rs name q = z.
Proof.
  intros H (e & He & En) Hz. unfold pooled. assert (Hn : In e (named name (concat rs))) by (apply filter_In; split; [exact He|rewrite En; apply eqb_refl]).
  rewrite (same_points q _ z).
  - assert (T : tot (named name (concat rs)) > 0).
    { apply tot_pos; [intros E; rewrite E in Hn; destruct Hn|]. intros e' He'. apply filter_In in He'. destruct He' as [He' _]. apply in_concat in He'. destruct He' as (r & Hr & He'). apply (H r Hr) in He'. destruct He' as (_ & _ & _ & P & _). exact P. }
    apply lt_INR in T. cbn [INR] in T. unfold Cdiv. rewrite (Cmult_comm (RtoC _) z), <- Cmult_assoc, Cinv_r by (intros E; injection E; lra). apply Cmult_1_r.
  - intros e' He'. apply filter_In in He'. destruct He' as [He' E']. apply Hz; [exact He'|]. destruct (eqb_spec (q_name e') name); [assumption|discriminate].
Qed.
Lemma iq_points base m rs xs nq z0 z1 prob : averaged_results m rs -> nq <= m -> iq_measured base rs xs nq z0 z1 prob ->
  iq_data (sched_names base (length xs)) [str "0"] nq rs = Ok [(str "0", map (fun q => (project (map (fun x => Cplus (z0 q) (Cmult (RtoC (prob q x)) (Cminus (z1 q) (z0 q)))) xs), error_bars xs)) (seq 0 nq))].
Proof.
  intros H Hq Hm. assert (EN : forall k, (str base ++ dec k ++ str "_") ++ str "0" = sched_name base k) by (intros k; unfold sched_name; rewrite <- !app_assoc; reflexivity).
  rewrite (iq_data_ok m rs _ _ nq H Hq).
  - cbn [map]. do 2 f_equal. f_equal. apply map_ext_in. intros q Hq'. apply in_seq in Hq'. unfold sched_names, error_bars. rewrite !map_map. f_equal.
    + f_equal. rewrite <- (nth_seq_map xs) at 2. rewrite map_map. apply map_ext_in. intros k Hk. apply in_seq in Hk. rewrite EN. destruct (Hm k ltac:(lia)) as [Hex Hall].
      apply (pooled_same m); [exact H|exact Hex|]. intros e He Ee. rewrite (Hall e He Ee q ltac:(lia)). rewrite RtoC_minus. ring.
    + rewrite <- (nth_seq_map xs) at 2. rewrite map_map. reflexivity.
  - intros s name [<-|[]] Hn. unfold sched_names in Hn. apply in_map_iff in Hn. destruct Hn as (k & <- & Hk). apply in_seq in Hk. rewrite EN. apply Hm. lia.
Qed.
Lemma signal_points z d p xs : d <> RtoC 0 -> (exists x x', In x xs /\ In x' xs /\ p x <> p x') ->
  project (map (fun x => Cplus z (Cmult (RtoC (p x)) d)) xs) = Some (iq_signal d p xs).
Proof.
  intros Hd (x & x' & H1 & H2 & H3). rewrite <- (map_map p (fun t => Cplus z (Cmult (RtoC t) d))). rewrite project_line by (try exact Hd; exists (p x), (p x'); auto using in_map). f_equal. unfold centred, iq_signal, gain. rewrite !map_map. reflexivity.
Qed.
Lemma combine_fst_snd {A B} (l : list A) (l' : list B) : length l = length l' -> map fst (combine l l') = l /\ map snd (combine l l') = l'.
Proof. revert l'. induction l as [|a l IH]; intros [|b l'] H; try discriminate; [auto|]. injection H as H. destruct (IH l' H) as [E1 E2]. cbn [combine map fst snd]. rewrite E1, E2. auto. Qed.
Lemma nth_error_seq_map {A} (g : nat -> A) n q : q < n -> nth_error (map g (seq 0 n)) q = Some (g q).
Proof. intros H. rewrite nth_error_map, (nth_error_nth' _ 0) by (rewrite seq_length; exact H). rewrite seq_nth by exact H. reflexivity. Qed.
(** The fits of all qubits. *)
Lemma iq_fit_exact cf base f m rs xs nq p0 bounds z0 z1 prob par : averaged_results m rs -> nq <= m -> iq_measured base rs xs nq z0 z1 prob ->
  (forall q, q < nq -> z1 q <> z0 q /\ (exists x x', In x xs /\ In x' xs /\ prob q x <> prob q x') /\
     in_bounds bounds (par q) /\ (forall x, In x xs -> f x (par q) = gain (Cminus (z1 q) (z0 q)) * (prob q x - rmean (map (prob q) xs)))%R /\
     least_squares cf f xs (iq_signal (Cminus (z1 q) (z0 q)) (prob q) xs) (error_bars xs) p0 bounds) ->
  exists st, iq_fit cf base f rs xs nq p0 bounds = Ok st /\ forall q, q < nq -> exists ps, get_at (g_params st) (str "0") q = Ok ps /\ in_bounds bounds ps /\ forall x, In x xs -> f x ps = f x (par q).
Proof.
  intros H Hq Hm K. unfold iq_fit. rewrite (iq_points base m rs xs nq z0 z1 prob H Hq Hm). cbn [bind].
  set (sig := fun q => iq_signal (Cminus (z1 q) (z0 q)) (prob q) xs).
  assert (EF : finite_points [(str "0", map (fun q => (project (map (fun x => Cplus (z0 q) (Cmult (RtoC (prob q x)) (Cminus (z1 q) (z0 q)))) xs), error_bars xs)) (seq 0 nq))] = Ok [(str "0", map (fun q => combine (sig q) (error_bars xs)) (seq 0 nq))]).
  { unfold finite_points. cbn [mapM snd fst]. rewrite (mapM_map _ (fun p => match fst p with None => [] | Some m => combine m (snd p) end)).
    - cbn [bind]. do 3 f_equal. rewrite map_map. apply map_ext_in. intros q Hq'. apply in_seq in Hq'. destruct (K q ltac:(lia)) as (Hz & Hx & _). cbn [fst snd]. rewrite signal_points; [reflexivity| |exact Hx].
      intros E. apply Hz. transitivity (Cplus (Cminus (z1 q) (z0 q)) (z0 q)); [ring|]. rewrite E. ring.
    - intros p Hp. apply in_map_iff in Hp. destruct Hp as (q & <- & Hq'). apply in_seq in Hq'. destruct (K q ltac:(lia)) as (Hz & Hx & _). cbn [fst snd]. rewrite signal_points; [reflexivity| |exact Hx].
      intros E. apply Hz. transitivity (Cplus (Cminus (z1 q) (z0 q)) (z0 q)); [ring|]. rewrite E. ring. }
  rewrite EF. cbn [bind].
  assert (FI : forall q, q < nq -> exists ps var, fit_is cf f xs [(str "0", map (fun q => combine (sig q) (error_bars xs)) (seq 0 nq))] p0 bounds (str "0") q ps var /\ in_bounds bounds ps /\ forall x, In x xs -> f x ps = f x (par q)).
  { intros q Hq'. destruct (K q Hq') as (Hz & Hx & Hb & Hf & Hl). destruct (least_exact cf f xs p0 bounds _ (par q) Hl Hb Hf) as (ps & var & E & B & M). exists ps, var. split; [|split; [exact B|intros x Hx'; rewrite (M x Hx'), (Hf x Hx'); reflexivity]].
    exists (combine (sig q) (error_bars xs)). split; [unfold get_at; cbn [dget]; rewrite eqb_refl; unfold index_e; rewrite nth_error_seq_map by exact Hq'; reflexivity|].
    destruct (combine_fst_snd (sig q) (error_bars xs)) as [-> ->]; [unfold sig, iq_signal, error_bars; rewrite !map_length; reflexivity|]. exact E. }
  destruct (fit_data_ok cf f xs p0 bounds [str "0"] nq [(str "0", map (fun q => combine (sig q) (error_bars xs)) (seq 0 nq))] (no_fit [str "0"] nq) None None None None) as (st & E & _ & _ & G & _).
  - apply no_fit_has.
  - apply no_fit_has.
  - auto.
  - intros q Hq'. apply in_seq in Hq'. lia.
  - intros s q [<-|[]] Hq'. apply in_seq in Hq'. destruct (FI q ltac:(lia)) as (ps & var & F & _). eauto.
  - exists st. split; [exact E|]. intros q Hq'. destruct (FI q Hq') as (ps & var & F & B & M). exists ps. split; [|auto]. refine (proj1 (G (str "0") q ps var (or_introl eq_refl) _ F)). apply in_seq. lia.
Qed.
(** ** The estimates *)
Lemma quadratic_inj xs a b c a' b' c' : a <> 0%R -> (exists x1 x2 x3, In x1 xs /\ In x2 xs /\ In x3 xs /\ x1 <> x2 /\ x1 <> x3 /\ x2 <> x3) ->
  (forall x, In x xs -> quadratic x a b c = quadratic x a' b' c') -> a = a' /\ b = b' /\ c = c'.
Proof.
  intros Ha (x1 & x2 & x3 & I1 & I2 & I3 & N12 & N13 & N23) H. pose proof (H x1 I1) as E1. pose proof (H x2 I2) as E2. pose proof (H x3 I3) as E3. unfold quadratic in *.
  assert (F12 : ((x1 - x2) * ((a - a') * (x1 + x2) - 2 * (a * b - a' * b')) = 0)%R) by nra.
  assert (F13 : ((x1 - x3) * ((a - a') * (x1 + x3) - 2 * (a * b - a' * b')) = 0)%R) by nra.
  apply Rmult_integral in F12. apply Rmult_integral in F13. destruct F12 as [F|F12]; [exfalso; apply N12; lra|]. destruct F13 as [F|F13]; [exfalso; apply N13; lra|].
  assert (F : ((a - a') * (x2 - x3) = 0)%R) by lra. apply Rmult_integral in F. destruct F as [F|F]; [|exfalso; apply N23; lra].
  assert (a' = a) by lra. subst a'. assert (G : (a * (b - b') = 0)%R) by lra. apply Rmult_integral in G. destruct G as [G|G]; [contradiction|]. assert (b' = b) by lra. subst b'. split; [reflexivity|]. split; [reflexivity|lra].
Qed.
