(** Specifications for the linear inversion of gate-set tomography (C49). *)
From Coq Require Import QArith.
From Verif Require Import LinAlg Base PyStr TomoModel GstModel.
Local Open Scope list_scope.
Local Open Scope nat_scope.

Section Spec.
  Context {F : Type} {HF : Fld F}.
  (** [X] is the inverse of the [n]x[n] matrix [M]. *)
  Definition inverse_of (n : nat) (X M : mat (F:=F) nat) : Prop :=
    forall i j, i < n -> j < n -> mmul (seq 0 n) X M i j = (if Nat.eqb i j then f1 else f0) /\ mmul (seq 0 n) M X i j = if Nat.eqb i j then f1 else f0.
  (** The probability of a sequence of operations, first operation first. *)
  Definition after (n : nat) (Ms : list (mat (F:=F) nat)) (rho : nat -> F) : nat -> F := fold_left (fun v M => mapply (seq 0 n) M v) Ms rho.
  Definition seq_prob (n : nat) (E rho : nat -> F) (Ms : list (mat (F:=F) nat)) : F := fsum (map (fun i => fmul (E i) (after n Ms rho i)) (seq 0 n)).
  (** The probabilities of all the experiments are those of the gates [G] and the
      SPAM circuits [S]. *)
  Definition exact_gst (n : nat) (spam gates : list pystr) (E rho : nat -> F) (G S : pystr -> mat (F:=F) nat) (probs : pyval -> option F) : Prop :=
    (forall fi, In fi spam -> probs (VTup [VStr fi]) = Some (seq_prob n E rho [S fi])) /\
    (forall fj fi, In fj spam -> In fi spam -> probs (VTup [VStr fj; VStr fi]) = Some (seq_prob n E rho [S fj; S fi])) /\
    (forall fj g fi, In fj spam -> In g gates -> In fi spam -> probs (VTup [VStr fj; VStr g; VStr fi]) = Some (seq_prob n E rho [S fj; G g; S fi])).
  (** The matrix of the probabilities of pairs. *)
  Definition gram_matrix (n : nat) (spam : list pystr) (E rho : nat -> F) (S : pystr -> mat (F:=F) nat) (i j : nat) : F :=
    seq_prob n E rho [S (nth j spam []); S (nth i spam [])].
  Definition nonzero (n : nat) (x : nat -> F) : Prop := exists i, i < n /\ x i <> f0.
  Definition eigenvector (n : nat) (M : mat (F:=F) nat) (l : F) (x : nat -> F) : Prop :=
    nonzero n x /\ forall i, i < n -> mapply (seq 0 n) M x i = fmul l (x i).
End Spec.

(** The SPAM circuits of an objective function: every name stands for a sequence of
    gates of the set. *)
Definition spam_of (Gs names : list pystr) (Fs : dict pystr (list pystr)) (ops : pystr -> list pystr) : Prop :=
  length names = length Fs /\ forall f, In f names -> dget Fs f = Some (ops f) /\ incl (ops f) Gs.
(** The sum of the squared differences between predictions and data, over all the
    experiments with a gate between two SPAM circuits. *)
Definition squared_error {F} {HF : Fld F} (d : nat) (Gs names : list pystr) (ops : pystr -> list pystr) (data : pystr -> pystr -> pystr -> F)
    (E rho : nat -> F) (G : pystr -> mat (F:=F) nat) : F :=
  fsum (flat_map (fun fi => flat_map (fun fj => map (fun g =>
    let x := fsub (seq_prob d E rho (map G (ops fj ++ [g] ++ ops fi))) (data fj g fi) in fmul x x) Gs) names) names).
