(** Averages and projections of IQ data (C69). *)
From Coq Require Import QArith Reals Lra.
From Coquelicot Require Import Coquelicot.
From Verif Require Import Base LinAlg PyStr ResultFacts CountsModel MeasCalModel CharModel CharEstModel IQModel IQSpec.
Local Open Scope list_scope.
Local Open Scope nat_scope.

(** ** Averages *)
Definition named (name : pystr) (L : list iqexp) : list iqexp := filter (fun e => eqb (q_name e) name) L.
Definition tot (L : list iqexp) : nat := fold_right (fun e n => q_shots e + n) 0 L.
Definition wsum (j : nat) (L : list iqexp) : C := fold_right (fun e z => Cplus (Cmult (RtoC (INR (q_shots e))) (point e j)) z) (RtoC 0) L.

Lemma named_app name L L' : named name (L ++ L') = named name L ++ named name L'.
Proof. apply filter_app. Qed.
Lemma tot_app L L' : tot (L ++ L') = tot L + tot L'.
Proof. induction L as [|e L IH]; [reflexivity|]. cbn [tot fold_right app]. fold (tot (L ++ L')). fold (tot L). rewrite IH. lia. Qed.
Lemma wsum_app j L L' : wsum j (L ++ L') = Cplus (wsum j L) (wsum j L').
Proof. induction L as [|e L IH]; cbn [wsum fold_right app]; [symmetry; apply Cplus_0_l|]. fold (wsum j (L ++ L')). fold (wsum j L). rewrite IH. apply Cplus_assoc. Qed.

Definition inv (m : nat) (st : iqacc) (L : list iqexp) : Prop :=
  a_ret st = (match L with [] => str "" | _ => str "avg" end) /\
  forall name, match named name L with
  | [] => dget (a_iq st) name = None /\ dget (a_shots st) name = None
  | _ => dget (a_shots st) name = Some (tot (named name L)) /\ exists l, dget (a_iq st) name = Some (Averaged l) /\ length l = m /\ forall j, j < m -> nth j l (RtoC 0) = wsum j (named name L)
  end.

Lemma get_memory_own r e : NoDup (map q_name r) -> In e r -> get_memory r (q_name e) = Ok (q_memory e).
Proof.
  unfold get_memory. intros Hn Hi. induction r as [|e0 r IH]; [destruct Hi|]. cbn [map] in Hn. inversion Hn as [|? ? Hx Hn']; subst. cbn [find]. destruct (eqb_spec (q_name e0) (q_name e)) as [E|E].
  - destruct Hi as [->|Hi]; [reflexivity|]. exfalso. apply Hx. rewrite E. apply in_map. exact Hi.
  - destruct Hi as [->|Hi]; [congruence|]. apply IH; assumption.
Qed.
Lemma nth_vadd l l' s : vadd l l' = Ok s -> length s = length l' /\ length l = length l' /\ forall j, j < length l' -> nth j s (RtoC 0) = Cplus (nth j l (RtoC 0)) (nth j l' (RtoC 0)).
Proof.
  unfold vadd. destruct (Nat.eqb_spec (length l) (length l')) as [E|]; [|discriminate]. intros H. injection H as <-. split; [rewrite map_length, combine_length; lia|]. split; [exact E|].
  intros j Hj. rewrite (nth_indep _ _ (Cplus (fst (RtoC 0, RtoC 0)) (snd (RtoC 0, RtoC 0)))) by (rewrite map_length, combine_length; lia).
  rewrite (map_nth (fun ab : C * C => Cplus (fst ab) (snd ab))), combine_nth by exact E. reflexivity.
Qed.
Lemma nth_vscale k l j : nth j (vscale k l) (RtoC 0) = Cmult (RtoC (INR k)) (nth j l (RtoC 0)).
Proof.
  destruct (Nat.lt_ge_cases j (length l)).
  - rewrite (nth_indep _ _ (Cmult (RtoC (INR k)) (RtoC 0))) by (unfold vscale; rewrite map_length; assumption). apply map_nth.
  - rewrite !nth_overflow by (unfold vscale; try rewrite map_length; assumption). symmetry. apply Cmult_0_r.
Qed.
Lemma nth_zeros n j : nth j (zeros n) (RtoC 0) = RtoC 0.
Proof. unfold zeros. destruct (Nat.lt_ge_cases j n); [apply nth_repeat|apply nth_overflow; rewrite repeat_length; assumption]. Qed.

Lemma add_exp_inv m r st L e : NoDup (map q_name r) -> In e r -> averaged m e -> inv m st L -> exists st', add_exp r st e = Ok st' /\ inv m st' (L ++ [e]).
Proof.
  intros Hn Hi (Hl & Hr & Hs & Hp & l & Hm & Hlen) (I1 & I2). unfold add_exp.
  assert (ER : (if eqb (a_ret st) (str "") then (if eqb (q_return e) (str "avg") then str "avg" else str "single") else a_ret st) = str "avg") by (rewrite I1, Hr; destruct L; reflexivity).
  rewrite ER, Hl, Hr, eqb_refl. cbn [Nat.eqb negb]. rewrite (get_memory_own r e Hn Hi), Hm. cbn [bind].
  assert (EP : forall j, point e j = nth j l (RtoC 0)) by (intros j; unfold point; rewrite Hm; reflexivity).
  specialize (I2 (q_name e)) as Ie.
  assert (EX : exists l0, (match dget (a_iq st) (q_name e) with Some m => m | None => Averaged (zeros (q_slots e)) end) = Averaged l0 /\ length l0 = m /\ (forall j, j < m -> nth j l0 (RtoC 0) = wsum j (named (q_name e) L)) /\
    (match dget (a_shots st) (q_name e) with Some n => n | None => 0 end) = tot (named (q_name e) L)).
  { destruct (named (q_name e) L) as [|e0 N].
    - destruct Ie as [-> ->]. exists (zeros (q_slots e)). split; [reflexivity|]. split; [rewrite Hs; apply repeat_length|]. split; [intros j _; apply nth_zeros|reflexivity].
    - destruct Ie as [-> (l0 & -> & L0 & N0)]. exists l0. auto. }
  destruct EX as (l0 & -> & L0 & N0 & ->). cbn [mem_add].
  destruct (vadd (vscale (q_shots e) l) l0) as [s|x] eqn:Ev.
  2:{ exfalso. unfold vadd, vscale in Ev. rewrite map_length, Hlen, L0, Nat.eqb_refl in Ev. discriminate. }
  cbn [bind]. destruct (nth_vadd _ _ _ Ev) as (Ls & _ & Ns). eexists. split; [reflexivity|]. split; [cbn [a_ret]; destruct L; reflexivity|].
  intros name. rewrite named_app. cbn [named filter a_iq a_shots]. fold (named name L). destruct (eqb_spec (q_name e) name) as [<-|Hne].
  - assert (G : forall P : list iqexp -> Prop, (forall e0 N, named (q_name e) L ++ [e] = e0 :: N -> P (e0 :: N)) -> P (named (q_name e) L ++ [e])) by (intros P H; destruct (named (q_name e) L) eqn:E; cbn [app] in *; eapply H; reflexivity).
    apply (G (fun X => match X with [] => _ | _ :: _ => _ end)). intros e0 N EN. rewrite !dget_dset, !eqb_refl. split; [rewrite tot_app; cbn [tot fold_right]; f_equal; lia|]. exists s. split; [reflexivity|].
    split; [congruence|]. intros j Hj. rewrite Ns, nth_vscale, N0, wsum_app, <- EP by lia. cbn [wsum fold_right]. rewrite Cplus_0_r. apply Cplus_comm.
  - rewrite app_nil_r. rewrite !dget_dset. destruct (eqb_spec name (q_name e)) as [E|_]; [congruence|]. apply I2.
Qed.
Lemma add_run_inv m r r' L st : NoDup (map q_name r) -> (forall e, In e r' -> In e r /\ averaged m e) -> inv m st L -> exists st', foldM (add_exp r) r' st = Ok st' /\ inv m st' (L ++ r').
Proof.
  intros Hn. revert L st. induction r' as [|e r' IH]; intros L st H I; cbn [foldM].
  - exists st. rewrite app_nil_r. auto.
  - destruct (H e (or_introl eq_refl)) as [Hi Ha]. destruct (add_exp_inv m r st L e Hn Hi Ha I) as (st1 & E1 & I1). rewrite E1. cbn [bind].
    destruct (IH (L ++ [e]) st1 (fun e' He' => H e' (or_intror He')) I1) as (st2 & E2 & I2). exists st2. split; [exact E2|]. rewrite <- app_assoc in I2. exact I2.
Qed.
Lemma add_all_inv m rs : averaged_results m rs -> exists st, add_all rs = Ok st /\ inv m st (concat rs).
Proof.
  intros H. unfold add_all.
  assert (G : forall L st, inv m st L -> (forall r, In r rs -> NoDup (map q_name r) /\ forall e, In e r -> averaged m e) -> exists st', foldM (fun st r => foldM (add_exp r) r st) rs st = Ok st' /\ inv m st' (L ++ concat rs)).
  { clear H. induction rs as [|r rs IH]; intros L st I H; cbn [foldM concat]; [exists st; rewrite app_nil_r; auto|].
    destruct (H r (or_introl eq_refl)) as [Hn Ha]. destruct (add_run_inv m r r L st Hn (fun e He => conj He (Ha e He)) I) as (st1 & E1 & I1). rewrite E1. cbn [bind].
    destruct (IH (L ++ r) st1 I1 (fun r' Hr' => H r' (or_intror Hr'))) as (st2 & E2 & I2). exists st2. split; [exact E2|]. rewrite <- app_assoc in I2. exact I2. }
  destruct (G [] {| a_ret := str ""; a_iq := []; a_shots := [] |}) as (st & E & I); [split; [reflexivity|intros name; cbn; auto]|exact H|]. exists st. auto.
Qed.
Lemma dget_means st name : dget (iq_means st) name = match dget (a_iq st) name with None => None | Some m => Some (mean_of (match dget (a_shots st) name with Some n => n | None => 0 end) m) end.
Proof.
  unfold iq_means. induction (a_iq st) as [|[k v] l IH]; [reflexivity|]. cbn [map dget fst snd]. destruct (eqb_spec name k) as [->|]; [reflexivity|exact IH].
Qed.
(** The mean of a name, weighted with the numbers of shots. *)
Lemma mean_at_avg m rs : averaged_results m rs -> exists st, add_all rs = Ok st /\
  forall name q, mean_at (iq_means st) name q = if existsb (fun e => eqb (q_name e) name) (concat rs) then (if q <? m then Ok (Cdiv (wsum q (named name (concat rs))) (RtoC (INR (tot (named name (concat rs)))))) else Err IndexError) else Err KeyError.
Proof.
  intros H. destruct (add_all_inv m rs H) as (st & E & _ & I). exists st. split; [exact E|]. intros name q. unfold mean_at. rewrite dget_means. specialize (I name).
  assert (X : existsb (fun e => eqb (q_name e) name) (concat rs) = match named name (concat rs) with [] => false | _ => true end).
  { clear I E H. unfold named. induction (concat rs) as [|e L IH]; [reflexivity|]. cbn [existsb filter]. destruct (eqb (q_name e) name); cbn [orb]; auto. }
  rewrite X. destruct (named name (concat rs)) as [|e0 N] eqn:EN; [destruct I as [-> _]; reflexivity|]. destruct I as [-> (l & -> & Hl & Hn)]. cbn [mean_of]. unfold index_e. rewrite nth_error_map.
  destruct (Nat.ltb_spec q m).
  - rewrite (nth_error_nth' l (RtoC 0)) by lia. cbn [option_map]. rewrite Hn by assumption. reflexivity.
  - rewrite (proj2 (nth_error_None l q)) by lia. reflexivity.
Qed.

(** ** Pooled shots *)
Lemma csumf_acc l z : fold_left Cplus l z = Cplus z (csumf l).
Proof. unfold csumf. revert z. induction l as [|a l IH]; intros z; cbn [fold_left]; [symmetry; apply Cplus_0_r|]. rewrite IH, (IH (Cplus (RtoC 0) a)), Cplus_0_l. symmetry. apply Cplus_assoc. Qed.
Lemma csumf_app l l' : csumf (l ++ l') = Cplus (csumf l) (csumf l').
Proof. unfold csumf at 1. rewrite fold_left_app, csumf_acc. reflexivity. Qed.
Lemma pooled_sum q L raws : Forall2 (fun e shots => average_of e shots /\ q < q_slots e /\ q_shots e > 0) L raws ->
  wsum q L = csumf (map (fun row => nth q row (RtoC 0)) (concat raws)) /\ tot L = length (concat raws).
Proof.
  intros H. induction H as [|e shots L raws ((Hl & Ha) & Hq & Hp) H [IH1 IH2]]; [split; reflexivity|]. cbn [concat wsum tot fold_right]. fold (wsum q L). fold (tot L). split.
  - rewrite map_app, csumf_app, <- IH1. f_equal. rewrite (Ha q Hq). unfold cmean. rewrite map_length, Hl, Cmult_assoc, <- RtoC_mult, Rinv_r by (apply not_0_INR; lia). apply Cmult_1_l.
  - rewrite app_length, Hl, IH2. reflexivity.
Qed.
Lemma same_points q L z : (forall e, In e L -> point e q = z) -> wsum q L = Cmult (RtoC (INR (tot L))) z.
Proof.
  induction L as [|e L IH]; intros H; cbn [wsum tot fold_right]; [symmetry; apply Cmult_0_l|]. fold (wsum q L). fold (tot L).
  rewrite IH by (intros e' He'; apply H; right; exact He'). rewrite (H e (or_introl eq_refl)), plus_INR, RtoC_plus. ring.
Qed.
Lemma tot_pos L : L <> [] -> (forall e, In e L -> q_shots e > 0) -> tot L > 0.
Proof. destruct L as [|e L]; [congruence|]. intros _ H. cbn. specialize (H e (or_introl eq_refl)). lia. Qed.
