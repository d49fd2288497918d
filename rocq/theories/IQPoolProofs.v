(** Pooled shots and refused data (C69). *)
From Coq Require Import QArith Reals Lra.
From Coquelicot Require Import Coquelicot.
From Verif Require Import Base LinAlg PyStr ResultFacts CountsModel MeasCalModel CharModel CharEstModel IQModel IQSpec IQProofs IQProjProofs IQDataProofs IQFitProofs.
Local Open Scope list_scope.
Local Open Scope nat_scope.

Lemma named_raws m name L raws : Forall2 average_of L raws -> (forall e, In e L -> averaged m e) -> forall q, q < m ->
  Forall2 (fun e shots => average_of e shots /\ q < q_slots e /\ q_shots e > 0) (named name L) (map snd (filter (fun er => eqb (q_name (fst er)) name) (combine L raws))).
Proof.
  intros H. induction H as [|e sh L raws He H IH]; intros Ha q Hq; [constructor|]. unfold named. cbn [filter combine fst]. specialize (IH (fun e' Hi => Ha e' (or_intror Hi)) q Hq). unfold named in IH. destruct (eqb (q_name e) name); [|exact IH]. cbn [map snd]. constructor; [|exact IH].
  destruct (Ha e (or_introl eq_refl)) as (_ & _ & Hs & Hn & _). rewrite Hs. auto.
Qed.
Lemma pooled_shots m rs raws name q : averaged_results m rs -> Forall2 average_of (concat rs) raws -> q < m -> (exists e, In e (concat rs) /\ q_name e = name) -> pooled rs name q = cmean (shots_of rs raws name q).
Proof.
  intros H Hr Hq (e & He & En). assert (Ha : forall e', In e' (concat rs) -> averaged m e') by (intros e' Hi; apply in_concat in Hi; destruct Hi as (r & Hr' & Hi); exact (proj2 (H r Hr') e' Hi)).
  pose proof (named_raws m name _ _ Hr Ha q Hq) as F. apply pooled_sum in F. destruct F as [F1 F2]. unfold pooled, shots_of. rewrite F1, F2. set (l := map (fun row => nth q row (RtoC 0)) (concat _)).
  assert (L : length l = length (concat (map snd (filter (fun er => eqb (q_name (fst er)) name) (combine (concat rs) raws))))) by (unfold l; rewrite map_length; reflexivity). rewrite <- L. unfold cmean, Cdiv.
  assert (P : length l > 0).
  { rewrite L, <- F2. apply tot_pos; [|intros e' Hi; apply filter_In in Hi; destruct (Ha e' (proj1 Hi)) as (_ & _ & _ & K & _); exact K]. intros E. assert (In e (named name (concat rs))) as K by (apply filter_In; split; [exact He|rewrite En; apply eqb_refl]). rewrite E in K. destruct K. }
  rewrite Cmult_comm. f_equal. rewrite RtoC_inv; [reflexivity|]. apply not_0_INR. lia.
Qed.
Lemma mapM_fails {A B} (f : A -> result B) l er : (forall a, In a l -> f a = Err er \/ exists b, f a = Ok b) -> (exists a, In a l /\ f a = Err er) -> mapM f l = Err er.
Proof.
  induction l as [|a l IH]; intros H (x & Hx & E); [destruct Hx|]. cbn [mapM]. destruct (H a (or_introl eq_refl)) as [K|(b & K)]; rewrite K; [reflexivity|]. cbn [bind]. rewrite IH; [reflexivity|intros y Hy; apply H; right; exact Hy|]. destruct Hx as [->|Hx]; [congruence|]. exists x. auto.
Qed.
Lemma mapM_either {A B} (f : A -> result B) l er : (forall a, In a l -> f a = Err er \/ exists b, f a = Ok b) -> mapM f l = Err er \/ exists b, mapM f l = Ok b.
Proof.
  induction l as [|a l IH]; intros H; [right; exists []; reflexivity|]. cbn [mapM]. destruct (H a (or_introl eq_refl)) as [K|(b & K)]; rewrite K; [left; reflexivity|]. cbn [bind]. destruct IH as [E|(bs & E)]; [intros y Hy; apply H; right; exact Hy|left|right]; rewrite E; [reflexivity|]. eexists. reflexivity.
Qed.
Lemma missing_key m rs names series nq s name : averaged_results m rs -> nq <= m -> nq > 0 -> In s series -> In name names -> (forall e, In e (concat rs) -> q_name e <> name ++ s) -> iq_data names series nq rs = Err KeyError.
Proof.
  intros H Hq Hn Hs Hname Hm. destruct (mean_at_avg m rs H) as (st & E & K). unfold iq_data. rewrite E. cbn [bind].
  assert (P : forall s' q, q < m -> forall nm, mean_at (iq_means st) (nm ++ s') q = Err KeyError \/ exists b, mean_at (iq_means st) (nm ++ s') q = Ok b).
  { intros s' q Hlt nm. rewrite K. destruct (existsb _ _); [|left; reflexivity]. destruct (Nat.ltb_spec q m); [|lia]. right. eexists. reflexivity. }
  apply mapM_fails.
  - intros s' _.
    destruct (mapM_either (fun q => do l <- mapM (fun nm => mean_at (iq_means st) (nm ++ s') q) names; Ok (project l, map (fun _ => (1 / 10000)%R) l)) (seq 0 nq) KeyError) as [E'|(b & E')].
    + intros q Hi. apply in_seq in Hi. destruct (mapM_either (fun nm => mean_at (iq_means st) (nm ++ s') q) names KeyError) as [E''|(b & E'')]; [intros nm _; apply P; lia|left|right]; rewrite E''; [reflexivity|]. eexists. reflexivity.
    + left. rewrite E'. reflexivity.
    + right. rewrite E'. eexists. reflexivity.
  - exists s. split; [exact Hs|]. rewrite (mapM_fails _ _ KeyError); [reflexivity| |].
    + intros q Hi. apply in_seq in Hi. destruct (mapM_either (fun nm => mean_at (iq_means st) (nm ++ s) q) names KeyError) as [E''|(b & E'')]; [intros nm _; apply P; lia|left|right]; rewrite E''; [reflexivity|]. eexists. reflexivity.
    + exists 0. split; [apply in_seq; lia|]. rewrite (mapM_fails _ _ KeyError); [reflexivity|intros nm _; apply P; lia|]. exists name. split; [exact Hname|]. rewrite K. destruct (existsb (fun e => eqb (q_name e) (name ++ s)) (concat rs)) eqn:Ex; [|reflexivity].
      apply existsb_exists in Ex. destruct Ex as (e & He & Ee). destruct (eqb_spec (q_name e) (name ++ s)) as [E'|]; [|discriminate]. exfalso. exact (Hm e He E').
Qed.
Lemma fit_nan cf base f m rs xs nq p0 bounds z0 z1 prob q : averaged_results m rs -> nq <= m -> xs <> [] -> iq_measured base rs xs nq z0 z1 prob -> q < nq -> z1 q = z0 q -> iq_fit cf base f rs xs nq p0 bounds = Err ValueError.
Proof.
  intros H Hq Hx Hm Hlt Hz. unfold iq_fit. rewrite (iq_points base m rs xs nq z0 z1 prob H Hq Hm). cbn [bind]. unfold finite_points. cbn [mapM snd fst].
  rewrite (mapM_fails _ _ ValueError); [reflexivity| |].
  - intros a _. destruct (fst a); [right; eexists; reflexivity|left; reflexivity].
  - eexists. split; [apply in_map_iff; exists q; split; [reflexivity|apply in_seq; lia]|]. cbn [fst]. rewrite (proj2 (project_none _)); [reflexivity|]. split; [destruct xs; [congruence|discriminate]|]. exists (z0 q). intros w Hw. apply in_map_iff in Hw. destruct Hw as (x & <- & _). rewrite Hz. ring.
Qed.
