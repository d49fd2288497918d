(** Exact arithmetic shared by the numerical parts of the model: a field with
    decidable equality, finite sums over lists, and the instance of canonical
    rationals.  Floating-point numbers of the code are modelled by an
    arbitrary such field. *)
From Verif Require Import Base.
From Coq Require Export Field Ring.
From Coq Require Import QArith.Qcanon.

Class Fld (F : Type) := {
  f0 : F; f1 : F;
  fadd : F -> F -> F; fmul : F -> F -> F; fsub : F -> F -> F; fopp : F -> F;
  fdiv : F -> F -> F; finv : F -> F;
  fth : field_theory f0 f1 fadd fmul fsub fopp fdiv finv (@eq F);
  feqb : F -> F -> bool;
  feqb_ok : forall x y, reflect (x = y) (feqb x y)
}.

Declare Scope fld_scope.
Delimit Scope fld_scope with F.
Infix "+" := fadd : fld_scope.
Infix "*" := fmul : fld_scope.
Infix "-" := fsub : fld_scope.
Infix "/" := fdiv : fld_scope.
Notation "- x" := (fopp x) : fld_scope.
Notation "0" := f0 : fld_scope.
Notation "1" := f1 : fld_scope.

Global Instance Fld_Eqb {F} {H : Fld F} : Eqb F := {| eqb := feqb; eqb_spec := feqb_ok |}.

Definition Qc_eqb (x y : Qc) : bool := if Qc_eq_dec x y then true else false.
Lemma Qc_eqb_ok x y : reflect (x = y) (Qc_eqb x y).
Proof. unfold Qc_eqb. destruct (Qc_eq_dec x y); constructor; assumption. Qed.

Global Instance Fld_Qc : Fld Qc :=
  {| f0 := 0%Qc; f1 := 1%Qc; fadd := Qcplus; fmul := Qcmult; fsub := Qcminus; fopp := Qcopp;
     fdiv := Qcdiv; finv := Qcinv; fth := Qcft; feqb := Qc_eqb; feqb_ok := Qc_eqb_ok |}.

(** A rational literal. *)
Definition qc (n : Z) (d : positive) : Qc := Q2Qc (QArith_base.Qmake n d).

Section Sums.
Context {F : Type} {HF : Fld F}.
Add Field FldField : fth.
Local Open Scope fld_scope.

(** Sum of a list of field elements. *)
Fixpoint fsum (l : list F) : F := match l with [] => 0 | x :: l' => x + fsum l' end.

(** Product of a list of field elements. *)
Fixpoint fprod (l : list F) : F := match l with [] => 1 | x :: l' => x * fprod l' end.

(** Image of an integer. *)
Definition fZ (z : Z) : F :=
  match z with
  | Z0 => 0
  | Zpos p => Pos.iter (fadd 1) 0 p
  | Zneg p => - Pos.iter (fadd 1) 0 p
  end.

Lemma f1_neq_0 : (1 : F) <> 0.
Proof. exact (F_1_neq_0 fth). Qed.

Lemma fmul_0_l (x : F) : 0 * x = 0. Proof. ring. Qed.
Lemma fmul_0_r (x : F) : x * 0 = 0. Proof. ring. Qed.
Lemma fmul_1_l (x : F) : 1 * x = x. Proof. ring. Qed.
Lemma fmul_1_r (x : F) : x * 1 = x. Proof. ring. Qed.
Lemma fadd_0_l (x : F) : 0 + x = x. Proof. ring. Qed.
Lemma fadd_0_r (x : F) : x + 0 = x. Proof. ring. Qed.
Lemma fmul_comm (x y : F) : x * y = y * x. Proof. ring. Qed.
Lemma fmul_assoc (x y z : F) : x * (y * z) = x * y * z. Proof. ring. Qed.
Lemma fadd_comm (x y : F) : x + y = y + x. Proof. ring. Qed.
Lemma fadd_assoc (x y z : F) : x + (y + z) = x + y + z. Proof. ring. Qed.

Lemma fmul_eq_0 (x y : F) : x * y = 0 -> x = 0 \/ y = 0.
Proof.
  intros H. destruct (feqb_ok x 0) as [|Hx]; [left; assumption|right].
  assert (Hy : y = (x * y) / x) by (field; exact Hx). rewrite H in Hy. rewrite Hy. field; exact Hx.
Qed.

Lemma fsum_app l l' : fsum (l ++ l') = fsum l + fsum l'.
Proof. induction l as [|x l IH]; cbn; [ring | rewrite IH; ring]. Qed.

Lemma fsum_perm l l' : Permutation l l' -> fsum l = fsum l'.
Proof. induction 1; cbn; try ring; congruence. Qed.

Lemma fsum_map_ext {A} (f g : A -> F) l :
  (forall a, In a l -> f a = g a) -> fsum (map f l) = fsum (map g l).
Proof.
  induction l as [|a l IH]; cbn; intros H; [reflexivity|].
  rewrite H by (left; reflexivity). rewrite IH by (intros; apply H; right; assumption). reflexivity.
Qed.

Lemma fsum_map_add {A} (f g : A -> F) l :
  fsum (map (fun a => f a + g a) l) = fsum (map f l) + fsum (map g l).
Proof. induction l as [|a l IH]; cbn; [ring | rewrite IH; ring]. Qed.

Lemma fsum_map_mul {A} k (f : A -> F) l :
  fsum (map (fun a => k * f a) l) = k * fsum (map f l).
Proof. induction l as [|a l IH]; cbn; [ring | rewrite IH; ring]. Qed.

Lemma fsum_map_mul_r {A} k (f : A -> F) l :
  fsum (map (fun a => f a * k) l) = fsum (map f l) * k.
Proof. induction l as [|a l IH]; cbn; [ring | rewrite IH; ring]. Qed.

Lemma fsum_map_zero {A} (l : list A) : fsum (map (fun _ => 0) l) = 0.
Proof. induction l as [|a l IH]; cbn; [reflexivity | rewrite IH; ring]. Qed.

Lemma fsum_map_zero' {A} (f : A -> F) (l : list A) : (forall a, In a l -> f a = 0) -> fsum (map f l) = 0.
Proof. intros H. rewrite (fsum_map_ext _ (fun _ => 0)) by exact H. apply fsum_map_zero. Qed.

Lemma fsum_swap {A B} (f : A -> B -> F) la lb :
  fsum (map (fun a => fsum (map (f a) lb)) la) = fsum (map (fun b => fsum (map (fun a => f a b) la)) lb).
Proof.
  induction la as [|a la IH]; cbn.
  - rewrite fsum_map_zero; reflexivity.
  - rewrite IH. symmetry. apply fsum_map_add.
Qed.

Lemma fsum_pick {A} `{Eqb A} (l : list A) a (f : A -> F) :
  NoDup l -> In a l -> fsum (map (fun x => if eqb a x then f x else 0) l) = f a.
Proof.
  induction l as [|x l IH]; intros Hnd Hin; [destruct Hin|].
  inversion Hnd as [|? ? Hni Hnd']; subst. cbn.
  destruct (eqb_spec a x) as [->|Hn].
  - rewrite fsum_map_zero'; [ring|]. intros b Hb. destruct (eqb_spec x b) as [->|]; [contradiction | reflexivity].
  - destruct Hin as [He|Hin]; [congruence|]. rewrite IH by assumption. ring.
Qed.

Lemma fsum_flat_map {A B} (f : B -> F) (g : A -> list B) l :
  fsum (map f (flat_map g l)) = fsum (map (fun a => fsum (map f (g a))) l).
Proof. induction l as [|a l IH]; cbn; [reflexivity|]. rewrite map_app, fsum_app, IH. reflexivity. Qed.

Lemma fold_left_fadd {A} (f : A -> F) l acc :
  fold_left (fun acc a => acc + f a) l acc = acc + fsum (map f l).
Proof. revert acc; induction l as [|a l IH]; intros acc; cbn; [ring|]. rewrite IH; ring. Qed.

Lemma fprod_app l l' : fprod (l ++ l') = fprod l * fprod l'.
Proof. induction l as [|x l IH]; cbn; [ring | rewrite IH; ring]. Qed.

Lemma fprod_perm l l' : Permutation l l' -> fprod l = fprod l'.
Proof. induction 1; cbn; try ring; congruence. Qed.

Lemma fprod_zero l : In 0 l -> fprod l = 0.
Proof.
  induction l as [|x l IH]; cbn; intros H; [destruct H|].
  destruct H as [H|H]; [subst; ring | rewrite IH by exact H; ring].
Qed.

(** Square matrices indexed by an arbitrary type, multiplied over an index list. *)
Definition mat (I : Type) := I -> I -> F.
Definition delta {I} `{Eqb I} : mat I := fun i j => if eqb i j then 1 else 0.
Definition mmul {I} (idx : list I) (A B : mat I) : mat I :=
  fun i j => fsum (map (fun k => A i k * B k j) idx).
Definition mapply {I} (idx : list I) (A : mat I) (x : I -> F) : I -> F :=
  fun i => fsum (map (fun k => A i k * x k) idx).

Lemma mapply_mmul {I} (idx : list I) A B x i :
  mapply idx A (mapply idx B x) i = mapply idx (mmul idx A B) x i.
Proof.
  unfold mapply, mmul.
  rewrite (fsum_map_ext _ (fun k => fsum (map (fun j => A i k * B k j * x j) idx))).
  - rewrite fsum_swap. apply fsum_map_ext. intros j _.
    rewrite <- fsum_map_mul_r. reflexivity.
  - intros k _. rewrite <- fsum_map_mul. apply fsum_map_ext. intros; ring.
Qed.

Lemma mapply_delta {I} `{Eqb I} (idx : list I) x i :
  NoDup idx -> In i idx -> mapply idx delta x i = x i.
Proof.
  intros Hnd Hi. unfold mapply, delta.
  rewrite (fsum_map_ext _ (fun k => if eqb i k then x k else 0)).
  - apply fsum_pick; assumption.
  - intros k _. destruct (eqb i k); ring.
Qed.

Lemma mapply_ext {I} (idx : list I) A B x y i :
  (forall k, In k idx -> A i k = B i k) -> (forall k, In k idx -> x k = y k) ->
  mapply idx A x i = mapply idx B y i.
Proof. intros HA Hx. unfold mapply. apply fsum_map_ext. intros k Hk. rewrite HA, Hx by exact Hk. reflexivity. Qed.

Lemma mmul_assoc {I} (idx : list I) A B C i j :
  mmul idx A (mmul idx B C) i j = mmul idx (mmul idx A B) C i j.
Proof. apply (mapply_mmul idx A B (fun k => C k j) i). Qed.
End Sums.

Global Arguments fsum : simpl never.
Global Arguments fprod : simpl never.
Lemma fsum_cons {F} {HF : Fld F} (x : F) l : fsum (x :: l) = fadd x (fsum l). Proof. reflexivity. Qed.
Lemma fsum_nil {F} {HF : Fld F} : fsum (F:=F) [] = f0. Proof. reflexivity. Qed.
Lemma fprod_cons {F} {HF : Fld F} (x : F) l : fprod (x :: l) = fmul x (fprod l). Proof. reflexivity. Qed.
Lemma fprod_nil {F} {HF : Fld F} : fprod (F:=F) [] = f1. Proof. reflexivity. Qed.
