(** The bound of the accreditation fitter and the struck targets among accepted runs. *)
From Coq Require Import QArith Qfield Lqa.
From Verif Require Import Base LinAlg QSem AccModel AccSpec AccFitSpec AccFitProofs AccProbProofs AccErrSpec.
Open Scope nat_scope.

Definition qn (k : nat) : Q := inject_Z (Z.of_nat k).
Lemma qn_le a b : a <= b -> (qn a <= qn b)%Q.
Proof. intros H. unfold qn. rewrite <- Zle_Qle. lia. Qed.
Lemma qn_pos a : 0 < a -> (0 < qn a)%Q.
Proof. intros H. unfold qn. change 0%Q with (inject_Z 0). rewrite <- Zlt_Qlt. lia. Qed.
Lemma qn_mul a b : (qn (a * b) == qn a * qn b)%Q.
Proof. unfold qn. rewrite Nat2Z.inj_mul, inject_Z_mult. reflexivity. Qed.

Lemma sum_sub (f : nat -> nat) l m : NoDup l -> Forall (fun k => k < m) l -> list_sum (map f l) <= list_sum (map f (seq 0 m)).
Proof.
  intros Hd Hl. rewrite Forall_forall in Hl. assert (I : incl l (seq 0 m)) by (intros k Hk; apply in_seq; specialize (Hl k Hk); lia).
  revert I. generalize (seq 0 m). clear Hl. induction Hd as [|x l Hx Hd IH]; intros s I; [cbn; lia|].
  destruct (in_split x s (I x (or_introl eq_refl))) as (s1 & s2 & ->). assert (I' : incl l (s1 ++ s2)).
  { intros k Hk. specialize (I k (or_intror Hk)). apply in_app_or in I as [I|[I|I]]; [apply in_or_app; auto|subst; contradiction|apply in_or_app; auto]. }
  specialize (IH _ I'). rewrite !map_app, !list_sum_app in *. cbn [map list_sum fold_right]. fold (list_sum (map f l)) (list_sum (map f s2)). lia.
Qed.

Lemma ratio_bound a b t m q : 0 < a -> 0 < t -> 0 < m -> 16 * b <= 27 * t -> b <= a -> (0 < q)%Q -> (q <= qn a / qn (m * t))%Q ->
  (qn b / qn a <= at_most_one ((17 # 10) / (qn m * q)))%Q.
Proof.
  intros Ha Ht Hm Hb Hba Hq Hp. pose proof (qn_pos a Ha) as Pa. pose proof (qn_pos t Ht) as Pt. pose proof (qn_pos m Hm) as Pm. pose proof (qn_le b a Hba) as Lb.
  assert (B0 : (0 <= qn b)%Q) by (apply (qn_le 0 b); lia).
  assert (Bt : (qn b <= (17 # 10) * qn t)%Q). { pose proof (qn_le (16 * b) (27 * t) Hb) as H. rewrite !qn_mul in H. change (qn 16) with (16 # 1)%Q in H. change (qn 27) with (27 # 1)%Q in H. lra. }
  assert (Q1 : (qn b / qn a <= 1)%Q) by (apply Qle_shift_div_r; [exact Pa|]; lra).
  assert (Q2 : (qn b / qn a <= (17 # 10) / (qn m * q))%Q).
  { assert (Pmq : (0 < qn m * q)%Q) by (apply Qmult_lt_0_compat; assumption). apply Qle_shift_div_l; [exact Pmq|].
    assert (M : (qn m * q <= qn a / qn t)%Q). { rewrite qn_mul in Hp. apply (Qmult_le_l _ _ (qn m) Pm) in Hp. eapply Qle_trans; [exact Hp|]. apply Qle_lteq. right. field. split; lra. }
    eapply Qle_trans with (qn b / qn a * (qn a / qn t))%Q.
    - rewrite !(Qmult_comm (qn b / qn a)). apply Qmult_le_compat_r; [exact M|]. apply Qle_shift_div_l; [exact Pa|]. lra.
    - assert (E : (qn b / qn a * (qn a / qn t) == qn b / qn t)%Q) by (field; split; lra). rewrite E. apply Qle_shift_div_r; [exact Pt|]. exact Bt. }
  unfold at_most_one. destruct (Qle_bool ((17 # 10) / (qn m * q)) 1); assumption.
Qed.

Lemma bound_holds theta f f' num a b t : f_runs f <> 0 -> f_traps f = Z.of_nat num -> bound_variation_distance theta f = Ok f' ->
  0 < t -> 16 * b <= 27 * t -> b <= a ->
  (theta < qn (f_acc f) / qn (f_runs f))%Q -> (qn (f_acc f) / qn (f_runs f) - theta <= qn a / qn ((num + 1) * t))%Q ->
  (qn b / qn a <= f_bound f')%Q.
Proof.
  intros Hr Ht E Pt Hb Hba Hth Hp. destruct (bound_value theta f Hr ltac:(lia) Hth) as (f0 & E0 & V & _). rewrite E in E0. injection E0 as <-. rewrite V. rewrite Ht.
  assert (Em : inject_Z (Z.of_nat num + 1) = qn (num + 1)) by (unfold qn; f_equal; lia). rewrite Em.
  fold (qn (f_acc f)) (qn (f_runs f)). apply (ratio_bound a b t (num + 1)); auto; [|lia|lra].
  destruct (Nat.eq_dec a 0) as [->|]; [|lia]. exfalso. assert (Z0 : (qn 0 / qn ((num + 1) * t) == 0)%Q) by (unfold Qdiv; apply Qmult_0_l). rewrite Z0 in Hp. lra.
Qed.
