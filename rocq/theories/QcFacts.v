(** Order reasoning on canonical rationals and finite sums of them. *)
From Coq Require Import QArith QArith.Qcanon Lqa.
From Verif Require Import LinAlg Base.
Open Scope nat_scope.

Lemma this_plus x y : (this (x + y)%Qc == this x + this y)%Q. Proof. apply Qred_correct. Qed.
Lemma this_mult x y : (this (x * y)%Qc == this x * this y)%Q. Proof. apply Qred_correct. Qed.
Lemma this_opp x : (this (- x)%Qc == - this x)%Q. Proof. apply Qred_correct. Qed.
Lemma this_minus x y : (this (x - y)%Qc == this x - this y)%Q.
Proof. unfold Qcminus. rewrite this_plus, this_opp. reflexivity. Qed.
Lemma this_0 : (this 0%Qc == 0)%Q. Proof. reflexivity. Qed.
Lemma this_1 : (this 1%Qc == 1)%Q. Proof. reflexivity. Qed.
Lemma this_eq (x y : Qc) : x = y <-> (this x == this y)%Q.
Proof. split; [intros ->; reflexivity | apply Qc_is_canon]. Qed.

Ltac fld_qc :=
  change (@fadd Qc Fld_Qc) with Qcplus in *; change (@fmul Qc Fld_Qc) with Qcmult in *;
  change (@fsub Qc Fld_Qc) with Qcminus in *; change (@fopp Qc Fld_Qc) with Qcopp in *;
  change (@fdiv Qc Fld_Qc) with Qcdiv in *; change (@finv Qc Fld_Qc) with Qcinv in *;
  change (@f0 Qc Fld_Qc) with (0%Qc) in *; change (@f1 Qc Fld_Qc) with (1%Qc) in *.

Ltac to_q :=
  fld_qc; unfold Qcle, Qclt in *;
  repeat match goal with
         | H : @eq Qc _ _ |- _ => apply -> this_eq in H
         | |- @eq Qc _ _ => apply this_eq
         end;
  repeat (rewrite ?this_plus, ?this_mult, ?this_opp, ?this_minus, ?this_0, ?this_1);
  repeat match goal with
         | H : context [this (_ + _)%Qc] |- _ => rewrite this_plus in H
         | H : context [this (_ * _)%Qc] |- _ => rewrite this_mult in H
         | H : context [this (- _)%Qc] |- _ => rewrite this_opp in H
         | H : context [this (_ - _)%Qc] |- _ => rewrite this_minus in H
         | H : context [this 0%Qc] |- _ => rewrite this_0 in H
         | H : context [this 1%Qc] |- _ => rewrite this_1 in H
         end.
Ltac qlra := to_q; lra.
Ltac qnra := to_q; nra.

Lemma Qc_neq_sym (x y : Qc) : x <> y -> y <> x. Proof. auto. Qed.

Lemma Qc_sq_nonneg (x : Qc) : (0 <= x * x)%Qc. Proof. qnra. Qed.
Lemma Qc_mul_nonneg (x y : Qc) : (0 <= x)%Qc -> (0 <= y)%Qc -> (0 <= x * y)%Qc. Proof. intros; qnra. Qed.
Lemma Qc_inv_pos (x : Qc) : (0 < x)%Qc -> (0 < / x)%Qc.
Proof. intros H. unfold Qclt in *. cbn. rewrite Qred_correct. apply Qinv_lt_0_compat. exact H. Qed.
Lemma Qc_pos_neq (x : Qc) : (0 < x)%Qc -> x <> 0%Qc. Proof. intros H ->. revert H. apply Qlt_irrefl. Qed.
Lemma Qc_div_nonneg (x y : Qc) : (0 <= x)%Qc -> (0 < y)%Qc -> (0 <= x / y)%Qc.
Proof. intros Hx Hy. apply Qc_mul_nonneg; [exact Hx|]. apply Qlt_le_weak, Qc_inv_pos, Hy. Qed.
Lemma Qc_le_div (x y z : Qc) : (0 < y)%Qc -> (x * y <= z)%Qc -> (x <= z / y)%Qc.
Proof.
  intros Hy H. pose proof (Qc_inv_pos y Hy) as Hi.
  assert (E : (x = x * y * / y)%Qc) by (field; apply Qc_pos_neq, Hy).
  rewrite E. unfold Qcdiv. qnra.
Qed.
Lemma Qc_div_le (x y z : Qc) : (0 < y)%Qc -> (z <= x * y)%Qc -> (z / y <= x)%Qc.
Proof.
  intros Hy H. pose proof (Qc_inv_pos y Hy) as Hi.
  assert (E : (x = x * y * / y)%Qc) by (field; apply Qc_pos_neq, Hy).
  rewrite E. unfold Qcdiv. qnra.
Qed.

(** Integers. *)
Definition iz (z : Z) : Qc := Q2Qc (inject_Z z).
Lemma this_iz z : (this (iz z) == inject_Z z)%Q. Proof. apply Qred_correct. Qed.
Lemma iz_add a b : iz (a + b) = (iz a + iz b)%Qc.
Proof. to_q. rewrite !this_iz. rewrite inject_Z_plus; reflexivity. Qed.
Lemma iz_mul a b : iz (a * b) = (iz a * iz b)%Qc.
Proof. to_q. rewrite !this_iz. rewrite inject_Z_mult; reflexivity. Qed.
Lemma iz_0 : iz 0 = 0%Qc. Proof. apply Qc_is_canon. reflexivity. Qed.
Lemma iz_1 : iz 1 = 1%Qc. Proof. apply Qc_is_canon. reflexivity. Qed.
Lemma iz_opp a : iz (- a) = (- iz a)%Qc.
Proof. to_q. rewrite !this_iz. rewrite inject_Z_opp; reflexivity. Qed.
Lemma iz_le a b : (a <= b)%Z -> (iz a <= iz b)%Qc.
Proof. intros H. unfold Qcle. rewrite !this_iz. rewrite <- Zle_Qle. exact H. Qed.
Lemma iz_lt a b : (a < b)%Z -> (iz a < iz b)%Qc.
Proof. intros H. unfold Qclt. rewrite !this_iz. rewrite <- Zlt_Qlt. exact H. Qed.
Lemma iz_nonneg a : (0 <= a)%Z -> (0 <= iz a)%Qc.
Proof. rewrite <- iz_0. apply iz_le. Qed.
Lemma iz_pos a : (0 < a)%Z -> (0 < iz a)%Qc.
Proof. rewrite <- iz_0. apply iz_lt. Qed.
Lemma iz_inj a b : iz a = iz b -> a = b.
Proof. intros H. apply this_eq in H. rewrite !this_iz in H. unfold Qeq in H. cbn in H. lia. Qed.
Lemma iz_neq_0 a : a <> 0%Z -> iz a <> 0%Qc.
Proof. intros H E. apply H. apply iz_inj. rewrite E, iz_0. reflexivity. Qed.

Lemma iz_zsum {A} (f : A -> Z) l : iz (zsum (map f l)) = fsum (map (fun a => iz (f a)) l).
Proof. induction l as [|a l IH]; cbn [map zsum]; [apply iz_0|]. rewrite fsum_cons, iz_add, IH. reflexivity. Qed.

(** Sums. *)
Lemma qsum_le {A} (f g : A -> Qc) l : (forall a, In a l -> (f a <= g a)%Qc) ->
  (fsum (map f l) <= fsum (map g l))%Qc.
Proof.
  induction l as [|a l IH]; intros H; cbn [map]; [apply Qle_refl|]. rewrite !fsum_cons.
  pose proof (H a (or_introl eq_refl)). assert (fsum (map f l) <= fsum (map g l))%Qc by (apply IH; intros; apply H; right; auto).
  qlra.
Qed.
Lemma qsum_zero {A} (l : list A) : fsum (map (fun _ => 0%Qc) l) = 0%Qc.
Proof. exact (fsum_map_zero (F:=Qc) l). Qed.
Lemma qsum_zero' {A} (f : A -> Qc) (l : list A) : (forall a, In a l -> f a = 0%Qc) -> fsum (map f l) = 0%Qc.
Proof. exact (fsum_map_zero' (F:=Qc) f l). Qed.
Lemma qsum_pick {A} `{Eqb A} (l : list A) a (f : A -> Qc) :
  NoDup l -> In a l -> fsum (map (fun b => if eqb a b then f b else 0%Qc) l) = f a.
Proof. exact (fsum_pick (F:=Qc) l a f). Qed.
Lemma qsum_cons (x : Qc) l : fsum (x :: l) = (x + fsum l)%Qc.
Proof. reflexivity. Qed.
Lemma qsum_app (l l' : list Qc) : fsum (l ++ l') = (fsum l + fsum l')%Qc.
Proof. exact (fsum_app (F:=Qc) l l'). Qed.
Lemma qprod_cons (x : Qc) l : fprod (x :: l) = (x * fprod l)%Qc.
Proof. reflexivity. Qed.
Lemma qprod_app (l l' : list Qc) : fprod (l ++ l') = (fprod l * fprod l')%Qc.
Proof. exact (fprod_app (F:=Qc) l l'). Qed.
Lemma qsum_nonneg {A} (f : A -> Qc) l : (forall a, In a l -> (0 <= f a)%Qc) -> (0 <= fsum (map f l))%Qc.
Proof.
  intros H. pose proof (qsum_le (fun _ => 0%Qc) f l H) as Hl. rewrite qsum_zero in Hl. exact Hl.
Qed.
Lemma qsum_add {A} (f g : A -> Qc) l : fsum (map (fun a => f a + g a)%Qc l) = (fsum (map f l) + fsum (map g l))%Qc.
Proof. exact (fsum_map_add (F:=Qc) f g l). Qed.
Lemma qsum_mul {A} k (f : A -> Qc) l : fsum (map (fun a => k * f a)%Qc l) = (k * fsum (map f l))%Qc.
Proof. exact (fsum_map_mul (F:=Qc) k f l). Qed.
Lemma qsum_mul_r {A} k (f : A -> Qc) l : fsum (map (fun a => f a * k)%Qc l) = (fsum (map f l) * k)%Qc.
Proof. exact (fsum_map_mul_r (F:=Qc) k f l). Qed.
Lemma qsum_ext {A} (f g : A -> Qc) l : (forall a, In a l -> f a = g a) -> fsum (map f l) = fsum (map g l).
Proof. exact (fsum_map_ext (F:=Qc) f g l). Qed.
Lemma qsum_swap {A B} (f : A -> B -> Qc) la lb :
  fsum (map (fun a => fsum (map (f a) lb)) la) = fsum (map (fun b => fsum (map (fun a => f a b) la)) lb).
Proof. exact (fsum_swap (F:=Qc) f la lb). Qed.

(** Sum over all indices of a register with one more (least significant) bit. *)
Lemma seq_double m : Permutation (seq 0 (2 * m)) (flat_map (fun i => [2 * i; 2 * i + 1]) (seq 0 m)).
Proof.
  induction m as [|m IH]; [reflexivity|].
  rewrite seq_S, flat_map_app. replace (2 * S m) with (S (S (2 * m))) by lia.
  rewrite !seq_S, <- app_assoc. apply Permutation_app; [exact IH|]. cbn [flat_map app Nat.add].
  replace (m + (m + 0)) with (2 * m) by lia. replace (S (2 * m)) with (2 * m + 1) by lia. reflexivity.
Qed.
Lemma qsum_bit (n : nat) (f : nat -> Qc) :
  fsum (map f (seq 0 (2 ^ S n))) = fsum (map (fun i => f (2 * i)%nat + f (2 * i + 1)%nat)%Qc (seq 0 (2 ^ n))).
Proof.
  cbn [Nat.pow]. rewrite (fsum_perm (F:=Qc) _ _ (Permutation_map f (seq_double (2 ^ n)))).
  induction (seq 0 (2 ^ n)) as [|a l IH]; cbn [flat_map map app]; [reflexivity|].
  rewrite !fsum_cons, IH. fld_qc. ring.
Qed.
