(** The field Q(w) with w = exp(i pi/4): the numbers a + b w + c w^2 + d w^3
    with rational coordinates and w^4 = -1.  It contains i = w^2 and
    1/sqrt 2 = (w - w^3)/2, hence the entries of all the Clifford+T gates. *)
From Coq Require Import QArith QArith.Qcanon.
From Verif Require Import Base LinAlg.
Open Scope Qc_scope.

Record cyc := Cyc { ca : Qc; cb : Qc; cc : Qc; cd : Qc }.

Definition cy0 : cyc := Cyc 0 0 0 0.
Definition cy1 : cyc := Cyc 1 0 0 0.
Definition cyadd (x y : cyc) : cyc := Cyc (ca x + ca y) (cb x + cb y) (cc x + cc y) (cd x + cd y).
Definition cyopp (x : cyc) : cyc := Cyc (- ca x) (- cb x) (- cc x) (- cd x).
Definition cysub (x y : cyc) : cyc := cyadd x (cyopp y).
Definition cymul (x y : cyc) : cyc :=
  Cyc (ca x * ca y - cb x * cd y - cc x * cc y - cd x * cb y)
      (ca x * cb y + cb x * ca y - cc x * cd y - cd x * cc y)
      (ca x * cc y + cb x * cb y + cc x * ca y - cd x * cd y)
      (ca x * cd y + cb x * cc y + cc x * cb y + cd x * ca y).
(** (p + q i) is the product of [x] with its conjugate under [w -> -w]. *)
Definition cp (x : cyc) : Qc := ca x * ca x - cc x * cc x + (1 + 1) * cb x * cd x.
Definition cq (x : cyc) : Qc := (1 + 1) * ca x * cc x - cb x * cb x + cd x * cd x.
Definition cyinv (x : cyc) : cyc :=
  let k := / (cp x * cp x + cq x * cq x) in
  cymul (Cyc (ca x) (- cb x) (cc x) (- cd x)) (Cyc (cp x * k) 0 (- cq x * k) 0).
Definition cydiv (x y : cyc) : cyc := cymul x (cyinv y).

Lemma cyc_ext x y : ca x = ca y -> cb x = cb y -> cc x = cc y -> cd x = cd y -> x = y.
Proof. destruct x, y; cbn. intros; subst; reflexivity. Qed.

Lemma Z_sqrt2_nat : forall m, forall n d, (Z.abs_nat n <= m)%nat -> (n * n = 2 * (d * d))%Z -> n = 0%Z.
Proof.
  induction m as [|m IH]; intros n d Hm H; [lia|].
  destruct (Z.eq_dec n 0) as [|Hn]; [assumption|exfalso].
  destruct (Z.Even_or_Odd n) as [[k Hk]|[k Hk]]; [|nia].
  assert (Hd : (d * d = 2 * (k * k))%Z) by nia.
  assert (d = 0)%Z; [|nia]. apply (IH d k); [|exact Hd].
  assert (Z.abs d < Z.abs n)%Z; [|lia]. apply Z.square_lt_simpl_nonneg; [lia|]. rewrite !Z.abs_square. nia.
Qed.

Lemma Q_sqrt2 (q : Q) : ~ (q * q == 2)%Q.
Proof.
  destruct q as [n d]. unfold Qeq, Qmult; cbn. intros H.
  assert (n = 0)%Z; [apply (Z_sqrt2_nat (Z.abs_nat n) n (Zpos d)); [lia | lia]|]. lia.
Qed.

Lemma Qc_sqrt2 (s r : Qc) : (1 + 1) * (s * s) = r * r -> r = 0.
Proof.
  intros H. destruct (Qc_eq_dec s 0) as [->|Hs].
  - assert (E : r * r = 0) by (rewrite <- H; ring). destruct (Qcmult_integral _ _ E); assumption.
  - exfalso. assert (E : (r / s) * (r / s) = 1 + 1).
    { transitivity (r * r / (s * s)); [field; exact Hs|]. rewrite <- H. field. exact Hs. }
    apply (Q_sqrt2 (this (r / s)%Qc)). change 2%Q with (1 + 1)%Q.
    assert (E' : (this ((r / s) * (r / s)) == this (1 + 1))%Q) by (rewrite E; reflexivity).
    change (Qred (this (r / s)%Qc * this (r / s)%Qc) == Qred (1 + 1))%Q in E'. rewrite !Qred_correct in E'. exact E'.
Qed.

Lemma Qc_sq_nonneg (a : Qc) : 0 <= a * a.
Proof. unfold Qcle. change (this 0) with 0%Q. unfold Qcmult, Q2Qc. cbn [this]. rewrite Qred_correct. destruct a as [[n d] H]. unfold Qle; cbn. nia. Qed.

Lemma Qc_sum_sq (a b : Qc) : a * a + b * b = 0 -> a = 0 /\ b = 0.
Proof.
  intros H. assert (Ha := Qc_sq_nonneg a). assert (Hb := Qc_sq_nonneg b).
  assert (a * a = 0).
  { apply Qcle_antisym; [|exact Ha]. rewrite <- H. rewrite <- (Qcplus_0_r (a * a)) at 1. apply Qcplus_le_compat; [apply Qcle_refl | exact Hb]. }
  assert (b * b = 0) by (rewrite H0, Qcplus_0_l in H; exact H).
  split; [destruct (Qcmult_integral _ _ H0); assumption | destruct (Qcmult_integral _ _ H1); assumption].
Qed.

Lemma norm_neq_0 x : x <> cy0 -> cp x * cp x + cq x * cq x <> 0.
Proof.
  intros Hx E. apply Qc_sum_sq in E. destruct E as [P Q]. unfold cp in P. unfold cq in Q.
  destruct x as [a b c d]; cbn [ca cb cc cd] in *.
  set (s := a * b + c * d). set (t := c * b - a * d). set (r := b * b + d * d).
  assert (E1 : s * s - t * t = 0).
  { transitivity ((a * a - c * c + (1 + 1) * b * d) * (b * b - d * d) + ((1 + 1) * a * c - b * b + d * d) * ((1 + 1) * b * d)); [unfold s, t; ring|].
    rewrite P, Q. ring. }
  assert (E2 : (1 + 1) * (s * t) = r * r).
  { assert (K : (1 + 1) * (s * t) - r * r = ((1 + 1) * a * c - b * b + d * d) * (b * b - d * d) - (a * a - c * c + (1 + 1) * b * d) * ((1 + 1) * b * d)) by (unfold s, t, r; ring).
    rewrite P, Q in K. transitivity ((1 + 1) * (s * t) - r * r + r * r); [ring|]. rewrite K. ring. }
  assert (E3 : (s - t) * (s + t) = 0) by (rewrite <- E1; ring).
  assert (Hr : r = 0).
  { destruct (Qcmult_integral _ _ E3) as [E|E].
    - apply (Qc_sqrt2 s). rewrite <- E2. assert (t = s) as -> by (transitivity (s - (s - t)); [ring | rewrite E; ring]). reflexivity.
    - assert (H : r * r + (1 + 1) * (s * s) = 0).
      { rewrite <- E2. assert (t = - s) as -> by (transitivity (s + t - s); [ring | rewrite E; ring]). ring. }
      assert (H' : r * r + (s * s + s * s) = 0) by (rewrite <- H; ring).
      assert (0 <= s * s + s * s) by (rewrite <- (Qcplus_0_r 0); apply Qcplus_le_compat; apply Qc_sq_nonneg).
      assert (r * r = 0).
      { apply Qcle_antisym; [|apply Qc_sq_nonneg]. rewrite <- H'. rewrite <- (Qcplus_0_r (r * r)) at 1. apply Qcplus_le_compat; [apply Qcle_refl | assumption]. }
      destruct (Qcmult_integral _ _ H1); assumption. }
  apply Qc_sum_sq in Hr. destruct Hr as [-> ->].
  assert (A : (a * a + c * c) * (a * a + c * c) = 0).
  { transitivity ((a * a - c * c + (1 + 1) * 0 * 0) * (a * a - c * c + (1 + 1) * 0 * 0) + ((1 + 1) * a * c - 0 * 0 + 0 * 0) * ((1 + 1) * a * c - 0 * 0 + 0 * 0)); [ring|]. rewrite P, Q. ring. }
  destruct (Qcmult_integral _ _ A) as [B|B]; apply Qc_sum_sq in B; destruct B as [-> ->]; apply Hx; reflexivity.
Qed.

Lemma cyc_field : field_theory cy0 cy1 cyadd cymul cysub cyopp cydiv cyinv (@eq cyc).
Proof.
  constructor.
  - constructor; intros; apply cyc_ext; cbn; ring.
  - discriminate.
  - reflexivity.
  - intros x Hx. apply norm_neq_0 in Hx. unfold cp, cq in Hx. unfold cyinv, cp, cq, cymul.
    apply cyc_ext; cbn [ca cb cc cd cy1]; field; exact Hx.
Qed.

Definition cyc_eqb (x y : cyc) : bool := Qc_eqb (ca x) (ca y) && Qc_eqb (cb x) (cb y) && Qc_eqb (cc x) (cc y) && Qc_eqb (cd x) (cd y).
Lemma cyc_eqb_ok x y : reflect (x = y) (cyc_eqb x y).
Proof.
  unfold cyc_eqb. destruct x as [a b c d], y as [a' b' c' d']; cbn.
  destruct (Qc_eqb_ok a a'); [|constructor; congruence]. destruct (Qc_eqb_ok b b'); [|constructor; congruence].
  destruct (Qc_eqb_ok c c'); [|constructor; congruence]. destruct (Qc_eqb_ok d d'); constructor; congruence.
Qed.

Global Instance Fld_cyc : Fld cyc :=
  {| f0 := cy0; f1 := cy1; fadd := cyadd; fmul := cymul; fsub := cysub; fopp := cyopp; fdiv := cydiv; finv := cyinv;
     fth := cyc_field; feqb := cyc_eqb; feqb_ok := cyc_eqb_ok |}.

(** Equality of closed terms. *)
Ltac cyc_compute := apply cyc_ext; apply Qc_is_canon; vm_compute; reflexivity.

(** Powers of w, indexed modulo 8, and 1/sqrt 2. *)
Definition omega (k : Z) : cyc :=
  match (k mod 8)%Z with
  | 0%Z => Cyc 1 0 0 0 | 1%Z => Cyc 0 1 0 0 | 2%Z => Cyc 0 0 1 0 | 3%Z => Cyc 0 0 0 1
  | 4%Z => Cyc (-(1)) 0 0 0 | 5%Z => Cyc 0 (-(1)) 0 0 | 6%Z => Cyc 0 0 (-(1)) 0 | _ => Cyc 0 0 0 (-(1))
  end.
Definition rsqrt2 : cyc := Cyc 0 (1 / (1 + 1)) 0 (- (1 / (1 + 1))).
(** Complex conjugation, w -> w^7 = - w^3. *)
Definition cconj (x : cyc) : cyc := Cyc (ca x) (- cd x) (- cc x) (- cb x).

Lemma omega_mod k l : (k mod 8 = l mod 8)%Z -> omega k = omega l.
Proof. intros H. unfold omega. rewrite H. reflexivity. Qed.

Lemma mod8_cases k : (k mod 8 = 0 \/ k mod 8 = 1 \/ k mod 8 = 2 \/ k mod 8 = 3 \/ k mod 8 = 4 \/ k mod 8 = 5 \/ k mod 8 = 6 \/ k mod 8 = 7)%Z.
Proof. assert (0 <= k mod 8 < 8)%Z by (apply Z.mod_pos_bound; lia). lia. Qed.

Lemma omega_add k l : omega (k + l) = cymul (omega k) (omega l).
Proof.
  rewrite (omega_mod (k + l) (k mod 8 + l mod 8)) by (rewrite <- Zplus_mod; reflexivity).
  rewrite (omega_mod k (k mod 8)), (omega_mod l (l mod 8)) by (rewrite Z.mod_mod; [reflexivity|lia]).
  destruct (mod8_cases k) as [E|[E|[E|[E|[E|[E|[E|E]]]]]]], (mod8_cases l) as [G|[G|[G|[G|[G|[G|[G|G]]]]]]]; rewrite E, G; cyc_compute.
Qed.

Lemma omega_neq_0 k : omega k <> cy0.
Proof. unfold omega. destruct (mod8_cases k) as [E|[E|[E|[E|[E|[E|[E|E]]]]]]]; rewrite E; discriminate. Qed.

Lemma rsqrt2_ok : cymul (cyadd rsqrt2 rsqrt2) rsqrt2 = cy1.
Proof. cyc_compute. Qed.
