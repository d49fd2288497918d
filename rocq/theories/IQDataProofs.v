(** The data of the IQ fitters (C69). *)
From Coq Require Import QArith Reals Lra.
From Coquelicot Require Import Coquelicot.
From Verif Require Import Base LinAlg PyStr ResultFacts CountsModel MeasCalModel CharModel CharEstModel IQModel IQSpec IQProofs IQProjProofs.
Local Open Scope list_scope.
Local Open Scope nat_scope.

Lemma mapM_map {A B} (f : A -> result B) (g : A -> B) l : (forall a, In a l -> f a = Ok (g a)) -> mapM f l = Ok (map g l).
Proof. induction l as [|a l IH]; intros H; [reflexivity|]. cbn [mapM map]. rewrite (H a (or_introl eq_refl)). cbn [bind]. rewrite IH by (intros b Hb; apply H; right; exact Hb). reflexivity. Qed.
(** The pooled mean. *)
Definition pooled (rs : list iqresult) (name : pystr) (q : nat) : C := Cdiv (wsum q (named name (concat rs))) (RtoC (INR (tot (named name (concat rs))))).
Lemma iq_data_ok m rs names series nq : averaged_results m rs -> nq <= m -> (forall s name, In s series -> In name names -> exists e, In e (concat rs) /\ q_name e = name ++ s) ->
  iq_data names series nq rs = Ok (map (fun s => (s, map (fun q => (project (map (fun name => pooled rs (name ++ s) q) names), map (fun _ => (1 / 10000)%R) names)) (seq 0 nq))) series).
Proof.
  intros H Hq Hn. destruct (mean_at_avg m rs H) as (st & E & K). unfold iq_data. rewrite E. cbn [bind]. apply mapM_map. intros s Hs.
  rewrite (mapM_map _ (fun q => (project (map (fun name => pooled rs (name ++ s) q) names), map (fun _ => (1 / 10000)%R) names))).
  - reflexivity.
  - intros q Hq'. apply in_seq in Hq'. rewrite (mapM_map _ (fun name => pooled rs (name ++ s) q)).
    + cbn [bind]. rewrite map_map. reflexivity.
    + intros name Hname. rewrite K. destruct (Hn s name Hs Hname) as (e & He & En). rewrite (proj2 (existsb_exists _ _)) by (exists e; split; [exact He|rewrite En; apply eqb_refl]).
      destruct (Nat.ltb_spec q m); [|lia]. reflexivity.
Qed.

(** ** Refused results *)
Lemma add_exp_ok r st e st' : add_exp r st e = Ok st' -> q_level e = 1 /\ a_ret st' = q_return e /\ (a_ret st = str "" \/ a_ret st = q_return e) /\ (q_return e = str "avg" \/ q_return e = str "single" \/ a_ret st <> str "" /\ a_ret st = q_return e).
Proof.
  unfold add_exp. intros E. destruct (Nat.eqb_spec (q_level e) 1) as [H1|]; [|discriminate]. cbn [negb] in E.
  set (ret := if eqb (a_ret st) (str "") then (if eqb (q_return e) (str "avg") then str "avg" else str "single") else a_ret st) in *.
  destruct (eqb_spec ret (q_return e)) as [H2|]; [|discriminate]. cbn [negb] in E. apply bind_inv in E. destruct E as (mm & E1 & E). apply bind_inv in E. destruct E as (s & E2 & E). injection E as <-. cbn [a_ret]. split; [exact H1|]. split; [exact H2|].
  unfold ret in H2. destruct (eqb_spec (a_ret st) (str "")) as [H3|H3]; [|auto]. split; [auto|]. destruct (eqb_spec (q_return e) (str "avg")); auto.
Qed.
Definition returns (st : iqacc) (L : list iqexp) : Prop :=
  (L = [] /\ a_ret st = str "") \/ (a_ret st = str "avg" \/ a_ret st = str "single") /\ forall e, In e L -> q_level e = 1 /\ q_return e = a_ret st.
Lemma add_exp_returns r st e st' L : add_exp r st e = Ok st' -> returns st L -> returns st' (L ++ [e]).
Proof.
  intros E H. destruct (add_exp_ok r st e st' E) as (H1 & H2 & H3 & H4). right. rewrite H2. destruct H as [[-> H]|[H K]].
  - split; [rewrite H in H4; destruct H4 as [H4|[H4|[H4 _]]]; auto; congruence|]. intros e' [<-|[]]. auto.
  - assert (X : a_ret st = q_return e). { destruct H3 as [H3|H3]; [|exact H3]. exfalso. rewrite H3 in H. destruct H; discriminate. }
    split; [rewrite <- X; exact H|]. intros e' He'. apply in_app_or in He'. destruct He' as [He'|[<-|[]]]; [rewrite <- X; apply K, He'|auto].
Qed.
Lemma add_all_returns rs st : add_all rs = Ok st -> returns st (concat rs).
Proof.
  unfold add_all. assert (I : returns {| a_ret := str ""; a_iq := []; a_shots := [] |} []) by (left; auto). revert I. generalize ({| a_ret := str ""; a_iq := []; a_shots := [] |}) as st0. change (concat rs) with ([] ++ concat rs). generalize (@nil iqexp) as L.
  induction rs as [|r rs IH]; intros L st0 I E; cbn [foldM concat] in *; [injection E as <-; rewrite app_nil_r; exact I|]. apply bind_inv in E. destruct E as (st1 & E1 & E). rewrite app_assoc. apply (IH _ st1); [|exact E].
  revert L st0 I E1. generalize r at 1 as r0. intros r0. clear. induction r as [|e r IH]; intros L st0 I E1; cbn [foldM] in E1; [injection E1 as <-; rewrite app_nil_r; exact I|].
  apply bind_inv in E1. destruct E1 as (st2 & E2 & E3). change (e :: r) with ([e] ++ r). rewrite app_assoc. apply (IH (L ++ [e]) st2); [exact (add_exp_returns _ _ _ _ _ E2 I)|exact E3].
Qed.
(** Single shots. *)
Definition per_shot (st : iqacc) : Prop := a_ret st = str "avg" \/ forall name m, dget (a_iq st) name = Some m -> exists l, m = PerShot l.
Lemma add_exp_per_shot r st e st' : add_exp r st e = Ok st' -> per_shot st -> per_shot st'.
Proof.
  intros E H. destruct (add_exp_ok r st e st' E) as (_ & H2 & H3 & H4). unfold add_exp in E. destruct (negb (q_level e =? 1)); [discriminate|].
  set (ret := if eqb (a_ret st) (str "") then (if eqb (q_return e) (str "avg") then str "avg" else str "single") else a_ret st) in *.
  destruct (eqb_spec ret (q_return e)) as [Hr|]; [|discriminate]. cbn [negb] in E. apply bind_inv in E. destruct E as (mm & E1 & E). apply bind_inv in E. destruct E as (s & E2 & E). injection E as <-. unfold per_shot. cbn [a_ret a_iq].
  destruct (eqb_spec ret (str "avg")) as [Ha|Ha]; [left; exact Ha|]. right. destruct H as [H|H]; [exfalso; apply Ha; unfold ret; rewrite H; reflexivity|].
  intros name m. rewrite dget_dset. destruct (eqb_spec name (q_name e)) as [->|_]; [|apply H]. intros Em. injection Em as <-.
  assert (B : exists l, (match dget (a_iq st) (q_name e) with Some m => m | None => PerShot (repeat (zeros (q_slots e)) (q_shots e)) end) = PerShot l).
  { destruct (dget (a_iq st) (q_name e)) as [m|] eqn:Ed; [destruct (H _ _ Ed) as (l & ->); eauto|eauto]. }
  destruct B as (l & B). rewrite B in E2. destruct mm as [l'|l']; cbn [mem_add] in E2; [discriminate|]. destruct (length l' =? length l); [|discriminate]. apply bind_inv in E2. destruct E2 as (rows & _ & E2). injection E2 as <-. eauto.
Qed.
Lemma foldM_pres {A B} (P : B -> Prop) (f : B -> A -> result B) l : (forall b a b', f b a = Ok b' -> P b -> P b') -> forall b b', foldM f l b = Ok b' -> P b -> P b'.
Proof. intros H. induction l as [|a l IH]; intros b b' E Hb; cbn [foldM] in E; [injection E as <-; exact Hb|]. apply bind_inv in E. destruct E as (b1 & E1 & E). exact (IH b1 b' E (H b a b1 E1 Hb)). Qed.
Lemma single_fails rs names series nq r e : In r rs -> In e r -> q_return e <> str "avg" -> names <> [] -> series <> [] -> nq > 0 -> forall d, iq_data names series nq rs <> Ok d.
Proof.
  intros Hr He Hs Hn Hse Hq d E. unfold iq_data in E. apply bind_inv in E. destruct E as (st & Es & E).
  assert (P : per_shot st). { unfold add_all in Es. refine (foldM_pres per_shot _ _ _ _ _ Es _); [|right; intros name m; discriminate]. intros b r' b' E'. exact (foldM_pres per_shot _ r' (fun b e b' => add_exp_per_shot r' b e b') b b' E'). }
  pose proof (add_all_returns rs st Es) as R. destruct R as [[R _]|[_ R]].
  { assert (In e (concat rs)) by (apply in_concat; eauto). rewrite R in H. destruct H. }
  destruct P as [P|P]; [apply Hs; rewrite (proj2 (R e (proj2 (in_concat rs e) (ex_intro _ r (conj Hr He))))); exact P|].
  destruct series as [|s series]; [congruence|]. cbn [mapM] in E. apply bind_inv in E. destruct E as (x & E1 & _). apply bind_inv in E1. destruct E1 as (y & E1 & _).
  destruct nq as [|nq]; [lia|]. cbn [seq mapM] in E1. apply bind_inv in E1. destruct E1 as (w & E1 & _). apply bind_inv in E1. destruct E1 as (v & E1 & _).
  destruct names as [|name names]; [congruence|]. cbn [mapM] in E1. apply bind_inv in E1. destruct E1 as (u & E1 & _). unfold mean_at in E1. rewrite dget_means in E1.
  destruct (dget (a_iq st) (name ++ s)) as [m|] eqn:Em; [|discriminate]. destruct (P _ _ Em) as (l & ->). cbn [mean_of] in E1. discriminate.
Qed.
