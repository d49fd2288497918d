(** The choices of a trap circuit and the errors they reveal. *)
From Coq Require Import QArith.
From Verif Require Import Base LinAlg ResultFacts QSem CountsModel DihedralModel RBSeqModel RBSeqSpec StdGates AccModel AccSpec AccErrSpec AccErrProofs.
Open Scope nat_scope.

(** ** Locality *)
Definition within (U : list nat) (gs : list ginstr) : Prop := forall g q, In g gs -> In q (gqubits g) -> In q U.
Lemma within_cons U g gs : within U (g :: gs) -> (forall q, In q (gqubits g) -> In q U) /\ within U gs.
Proof. intros H. split; [intros q; apply H; left; reflexivity|intros g' q Hg; apply H; right; exact Hg]. Qed.
Lemma fr_out g f j : ~ In j (gqubits g) -> fr g f j = f j.
Proof.
  unfold fr. destruct (gqubits g) as [|a [|b [|]]]; try reflexivity; intros H.
  - assert (E : (j =? a) = false) by (apply Nat.eqb_neq; intros ->; apply H; left; reflexivity).
    destruct (eqb (gname g) (str "h")); [rewrite E; reflexivity|]. destruct (eqb (gname g) (str "s") || eqb (gname g) (str "sdg")); [rewrite E; reflexivity|reflexivity].
  - assert (E : (j =? a) = false) by (apply Nat.eqb_neq; intros ->; apply H; left; reflexivity).
    assert (E' : (j =? b) = false) by (apply Nat.eqb_neq; intros ->; apply H; right; left; reflexivity).
    destruct (eqb (gname g) (str "cx")); [rewrite E, E'; reflexivity|]. destruct (eqb (gname g) (str "cz")); [rewrite E, E'; reflexivity|reflexivity].
Qed.
Lemma fr_in U g f f' : (forall q, In q (gqubits g) -> In q U) -> (forall j, In j U -> f j = f' j) -> forall j, In j U -> fr g f j = fr g f' j.
Proof.
  intros HU H j Hj. unfold fr. destruct (gqubits g) as [|a [|b [|]]]; try (apply H; exact Hj).
  - rewrite (H a) by (apply HU; left; reflexivity).
    destruct (eqb (gname g) (str "h")); [destruct (j =? a); [reflexivity|apply H, Hj]|]. destruct (eqb (gname g) (str "s") || eqb (gname g) (str "sdg")); [destruct (j =? a); [reflexivity|apply H, Hj]|apply H, Hj].
  - rewrite (H a) by (apply HU; left; reflexivity). rewrite (H b) by (apply HU; right; left; reflexivity).
    destruct (eqb (gname g) (str "cx")); [destruct (j =? a); [reflexivity|destruct (j =? b); [reflexivity|apply H, Hj]]|]. destruct (eqb (gname g) (str "cz")); [destruct (j =? a); [reflexivity|destruct (j =? b); [reflexivity|apply H, Hj]]|apply H, Hj].
Qed.
Lemma frs_out U gs : within U gs -> forall f j, ~ In j U -> frs gs f j = f j.
Proof.
  induction gs as [|g gs IH]; intros W f j Hj; [reflexivity|]. apply within_cons in W as [W1 W2]. change (frs (g :: gs) f) with (frs gs (fr g f)). rewrite IH by assumption. apply fr_out. intros H. apply Hj, W1, H.
Qed.
Lemma frs_in U gs : within U gs -> forall f f', (forall j, In j U -> f j = f' j) -> forall j, In j U -> frs gs f j = frs gs f' j.
Proof.
  induction gs as [|g gs IH]; intros W f f' H j Hj; [apply H, Hj|]. apply within_cons in W as [W1 W2]. change (frs (g :: gs) f j = frs (g :: gs) f' j) with (frs gs (fr g f) j = frs gs (fr g f') j). apply IH; [exact W2| |exact Hj]. apply fr_in; assumption.
Qed.

(** ** Locations *)
Inductive loc := Pr (q0 q1 : nat) | Idl (q : nat).
Definition sup (u : loc) : list nat := match u with Pr a b => [a; b] | Idl q => [q] end.
Definition two_l (g2 : pystr) (b : bool) (u : loc) : list ginstr :=
  match u with Pr q0 q1 => [{| gname := g2; gparams := []; gqubits := [q0; q1] |}] | Idl _ => [] end.
Definition own_l (g2 : pystr) (b : bool) (u : loc) : list ginstr :=
  gates match u with Pr q0 q1 => match trap_pair g2 b q0 q1 with Ok p => fst p | Err _ => [] end | Idl q => fst (trap_idle b q) end.
Definition inv_l (g2 : pystr) (b : bool) (u : loc) : list ginstr :=
  gates match u with Pr q0 q1 => match trap_pair g2 b q0 q1 with Ok p => snd p | Err _ => [] end | Idl q => snd (trap_idle b q) end.
Definition okl (u : loc) : Prop := match u with Pr a b => a <> b | Idl _ => True end.
Fixpoint blk (h : bool -> loc -> list ginstr) (bs : bits) (ls : list loc) : list ginstr :=
  match bs, ls with b :: bs', u :: ls' => h b u ++ blk h bs' ls' | _, _ => [] end.
Definition sups (ls : list loc) : list nat := flat_map sup ls.
Definition localh (h : bool -> loc -> list ginstr) : Prop := forall b u, within (sup u) (h b u).
Definition tlg (g2 : pystr) (b : bool) (u : loc) (e f : error) : error := frs (inv_l g2 b u) (xe (frs (two_l g2 b u) (frs (own_l g2 b u) f)) e).
Definition Tlg (g2 : pystr) (bs : bits) (ls : list loc) (e f : error) : error := frs (blk (inv_l g2) bs ls) (xe (frs (blk (two_l g2) bs ls) (frs (blk (own_l g2) bs ls) f)) e).
Definition pf {A} (v w : A) : nat -> A := fun j => match j with 0 => v | _ => w end.
Definition p01g g2 b v w x y k := tlg g2 b (Pr 0 1) (pf x y) (pf v w) k.
Definition i0g g2 b v x := tlg g2 b (Idl 0) (pf x x) (pf v v) 0.
Section G2.
Variable g2 : pystr.
Hypothesis Hg2 : g2 = str "cx" \/ g2 = str "cz".
Lemma two_local : localh (two_l g2).
Proof. intros b [a c|q] g j Hg Hj; [destruct Hg as [<-|[]]; exact Hj|destruct Hg]. Qed.
Ltac loc_tac := intros b u; destruct Hg2 as [-> | ->]; destruct u as [a c|a], b; intros g j Hg Hj; cbn in Hg; repeat (destruct Hg as [<-|Hg]; [cbn in Hj |- *; tauto|]); destruct Hg.
Lemma own_local : localh (own_l g2). Proof. loc_tac. Qed.
Lemma inv_local : localh (inv_l g2). Proof. loc_tac. Qed.

Lemma blk_within h ls : localh h -> forall bs, within (sups ls) (blk h bs ls).
Proof.
  intros Hh. induction ls as [|u ls IH]; intros bs g q Hg Hq; [destruct bs; destruct Hg|]. destruct bs as [|b bs]; [destruct Hg|]. cbn in Hg. unfold sups. cbn. apply in_or_app. apply in_app_or in Hg as [Hg|Hg]; [left; exact (Hh b u g q Hg Hq)|right; exact (IH bs g q Hg Hq)].
Qed.
Lemma blk_at h ls : localh h -> NoDup (sups ls) -> forall bs k u b f j, nth_error ls k = Some u -> nth_error bs k = Some b -> In j (sup u) -> frs (blk h bs ls) f j = frs (h b u) f j.
Proof.
  intros Hh. induction ls as [|v ls IH]; intros ND bs k u b f j Hu Hb Hj; [destruct k; discriminate|]. destruct bs as [|c bs]; [destruct k; discriminate|].
  unfold sups in ND. cbn in ND. cbn [blk]. rewrite frs_app. destruct k as [|k].
  - injection Hu as <-. injection Hb as <-. apply (frs_out (sups ls)); [apply blk_within, Hh|]. intros H. revert ND Hj H. generalize (sup v) as A. intros A ND Hj H. induction A as [|a A IHA]; [destruct Hj|]. inversion ND as [|? ? N1 N2]; subst. destruct Hj as [-> |Hj]; [apply N1, in_or_app; right; exact H|exact (IHA N2 Hj)].
  - cbn in Hu, Hb. assert (ND' : NoDup (sups ls)) by (clear -ND; induction (sup v) as [|a A IHA]; [exact ND|inversion ND; auto]).
    rewrite (IH ND' bs k u b _ j Hu Hb Hj). apply (frs_in (sup u)); [apply Hh| |exact Hj]. intros q Hq. apply (frs_out (sup v)); [apply Hh|]. intros H.
    assert (Hq' : In q (sups ls)) by (apply in_flat_map; exists u; split; [apply (nth_error_In _ _ Hu)|exact Hq]). clear -ND H Hq'. fold (sups ls) in ND. induction (sup v) as [|a A IHA]; [destruct H|]. inversion ND as [|? ? N1 N2]; subst. destruct H as [-> |H]; [apply N1, in_or_app; right; exact Hq'|exact (IHA N2 H)].
Qed.

Notation tl := (tlg g2).
Notation Tl := (Tlg g2).
Lemma T_at ls bs k u b e f j : NoDup (sups ls) -> nth_error ls k = Some u -> nth_error bs k = Some b -> In j (sup u) -> Tl bs ls e f j = tl b u e f j.
Proof.
  intros ND Hu Hb Hj. unfold Tlg, tlg. rewrite (blk_at _ _ inv_local ND bs k u b _ j Hu Hb Hj). apply (frs_in (sup u)); [apply inv_local| |exact Hj]. intros q Hq. unfold xe. rewrite (blk_at _ _ two_local ND bs k u b _ q Hu Hb Hq).
  rewrite (frs_in (sup u) _ (two_local b u) (frs (blk (own_l g2) bs ls) f) (frs (own_l g2 b u) f)); [reflexivity| |exact Hq]. intros w Hw. apply (blk_at _ _ own_local ND bs k u b f w Hu Hb Hw).
Qed.

Definition z0 (e : error) (U : list nat) : Prop := forall j, In j U -> e j = (false, false).

(** Every location looks like that of qubits 0 and 1. *)
Definition ren (h : nat -> nat) (g : ginstr) : ginstr := {| gname := gname g; gparams := gparams g; gqubits := map h (gqubits g) |}.
Lemma fr_ren h U g f f' : (forall j k, In j U -> In k U -> h j = h k -> j = k) -> (forall q, In q (gqubits g) -> In q U) -> (forall j, In j U -> f (h j) = f' j) ->
  forall j, In j U -> fr (ren h g) f (h j) = fr g f' j.
Proof.
  intros Hi HU H j Hj. unfold fr, ren. cbn [gqubits gname]. assert (E : forall q, In q (gqubits g) -> (h j =? h q) = (j =? q)).
  { intros q Hq. destruct (Nat.eqb_spec j q) as [->|N]; [apply Nat.eqb_refl|]. apply Nat.eqb_neq. intros E. apply N, Hi; auto. }
  destruct (gqubits g) as [|a [|b [|]]]; cbn [map]; try (apply H; exact Hj).
  - rewrite (H a) by (apply HU; left; reflexivity). pose proof (E a (or_introl eq_refl)) as Ea.
    destruct (eqb (gname g) (str "h")); [rewrite Ea; destruct (j =? a); [reflexivity|apply H, Hj]|]. destruct (eqb (gname g) (str "s") || eqb (gname g) (str "sdg")); [rewrite Ea; destruct (j =? a); [reflexivity|apply H, Hj]|apply H, Hj].
  - rewrite (H a) by (apply HU; left; reflexivity). rewrite (H b) by (apply HU; right; left; reflexivity). pose proof (E a (or_introl eq_refl)) as Ea. pose proof (E b (or_intror (or_introl eq_refl))) as Eb.
    destruct (eqb (gname g) (str "cx")); [rewrite Ea, Eb; destruct (j =? a); [reflexivity|destruct (j =? b); [reflexivity|apply H, Hj]]|]. destruct (eqb (gname g) (str "cz")); [rewrite Ea, Eb; destruct (j =? a); [reflexivity|destruct (j =? b); [reflexivity|apply H, Hj]]|apply H, Hj].
Qed.
Lemma frs_ren h U gs : (forall j k, In j U -> In k U -> h j = h k -> j = k) -> within U gs -> forall f f', (forall j, In j U -> f (h j) = f' j) ->
  forall j, In j U -> frs (map (ren h) gs) f (h j) = frs gs f' j.
Proof.
  intros Hi. induction gs as [|g gs IH]; intros W f f' H j Hj; [apply H, Hj|]. apply within_cons in W as [W1 W2]. cbn [map]. change (frs gs (fr g f') j) with (frs gs (fr g f') j).
  change (frs (ren h g :: map (ren h) gs) f (h j)) with (frs (map (ren h) gs) (fr (ren h g) f) (h j)). change (frs (g :: gs) f' j) with (frs gs (fr g f') j). apply IH; [exact W2| |exact Hj]. apply (fr_ren h U); assumption.
Qed.
Definition canon (u : loc) : loc := match u with Pr _ _ => Pr 0 1 | Idl _ => Idl 0 end.
Definition real (u : loc) : nat -> nat := match u with Pr a c => pf a c | Idl q => fun _ => q end.
Lemma own_ren b u : own_l g2 b u = map (ren (real u)) (own_l g2 b (canon u)).
Proof. destruct Hg2 as [-> | ->]; destruct u, b; reflexivity. Qed.
Lemma inv_ren b u : inv_l g2 b u = map (ren (real u)) (inv_l g2 b (canon u)).
Proof. destruct Hg2 as [-> | ->]; destruct u, b; reflexivity. Qed.
Lemma two_ren b u : two_l g2 b u = map (ren (real u)) (two_l g2 b (canon u)).
Proof. destruct u; reflexivity. Qed.
Lemma real_inj u : okl u -> forall j k, In j (sup (canon u)) -> In k (sup (canon u)) -> real u j = real u k -> j = k.
Proof. destruct u as [a c|q]; cbn; [intros H j k [<-|[<-|[]]] [<-|[<-|[]]]; cbn; congruence|intros _ j k [<-|[]] [<-|[]]; reflexivity]. Qed.
Lemma tl_ren b u e f e' f' : okl u -> (forall j, In j (sup (canon u)) -> f (real u j) = f' j) -> (forall j, In j (sup (canon u)) -> e (real u j) = e' j) ->
  forall j, In j (sup (canon u)) -> tl b u e f (real u j) = tl b (canon u) e' f' j.
Proof.
  intros Hu Hf He j Hj. unfold tlg. rewrite (inv_ren b u). apply (frs_ren _ (sup (canon u))); [apply real_inj, Hu|apply inv_local| |exact Hj]. intros k Hk. unfold xe. rewrite He by exact Hk.
  rewrite (two_ren b u), (own_ren b u). rewrite (frs_ren _ (sup (canon u)) _ (real_inj u Hu) (two_local b (canon u)) _ (frs (own_l g2 b (canon u)) f')); [reflexivity| |exact Hk].
  apply frs_ren; [apply real_inj, Hu|apply own_local|exact Hf].
Qed.
Lemma tl_pair b a c e f : a <> c -> tl b (Pr a c) e f a = tl b (Pr 0 1) (pf (e a) (e c)) (pf (f a) (f c)) 0 /\ tl b (Pr a c) e f c = tl b (Pr 0 1) (pf (e a) (e c)) (pf (f a) (f c)) 1.
Proof. intros H. split; [apply (tl_ren b (Pr a c) e f) with (j := 0)|apply (tl_ren b (Pr a c) e f) with (j := 1)]; try exact H; try (intros j [<-|[<-|[]]]; reflexivity); cbn; auto. Qed.
Lemma tl_idle b q e f : tl b (Idl q) e f q = tl b (Idl 0) (pf (e q) (e q)) (pf (f q) (f q)) 0.
Proof. apply (tl_ren b (Idl q) e f) with (j := 0); try exact I; try (intros j [<-|[]]; reflexivity); cbn; auto. Qed.
Definition all2 : list (bool * bool) := [(false, false); (false, true); (true, false); (true, true)].
Lemma in_all2 v : In v all2. Proof. destruct v as [[] []]; cbn; auto. Qed.
Definition vz (v : bool * bool) : bool := negb (fst v || snd v).
Lemma vz_ok v : vz v = true <-> v = (false, false).
Proof. destruct v as [[] []]; cbn; split; congruence. Qed.
Definition cases (P : bool -> bool * bool -> bool * bool -> bool * bool -> bool * bool -> bool) : bool :=
  forallb (fun b => forallb (fun v => forallb (fun w => forallb (fun x => forallb (fun y => P b v w x y) all2) all2) all2) all2) [true; false].
Lemma cases_ok P : cases P = true -> forall b v w x y, P b v w x y = true.
Proof.
  unfold cases. intros H b v w x y. rewrite forallb_forall in H. assert (Hb : In b [true; false]) by (destruct b; cbn; auto). specialize (H b Hb). rewrite forallb_forall in H. specialize (H v (in_all2 v)). rewrite forallb_forall in H. specialize (H w (in_all2 w)). rewrite forallb_forall in H. specialize (H x (in_all2 x)). rewrite forallb_forall in H. exact (H y (in_all2 y)).
Qed.
Notation p01 := (p01g g2).
Notation i0 := (i0g g2).
Lemma pair_fst : cases (fun b v w x y => forallb (fun k => eqb (fst (p01 b v w x y k)) (fst (p01 b (fst v, false) (fst w, false) x y k))) [0; 1]) = true.
Proof. destruct Hg2 as [-> | ->]; vm_compute; reflexivity. Qed.
Lemma pair_snd : cases (fun b v w x y => forallb (fun k => eqb (snd (p01 b v w x y k)) (snd (p01 b (false, snd v) (false, snd w) x y k))) [0; 1]) = true.
Proof. destruct Hg2 as [-> | ->]; vm_compute; reflexivity. Qed.
Lemma pair_zero : cases (fun b v w x y => negb (vz (p01 b v w (false, false) (false, false) 0) && vz (p01 b v w (false, false) (false, false) 1)) || (vz v && vz w)) = true.
Proof. destruct Hg2 as [-> | ->]; vm_compute; reflexivity. Qed.
Lemma pair_both : cases (fun b v w x y => negb (vz (p01 true v w x y 0) && vz (p01 true v w x y 1) && vz (p01 false v w x y 0) && vz (p01 false v w x y 1)) || (vz x && vz y)) = true.
Proof. destruct Hg2 as [-> | ->]; vm_compute; reflexivity. Qed.
Lemma idle_all : cases (fun b v _ x _ => eqb (fst (i0 b v x)) (fst (i0 b (fst v, false) x)) && eqb (snd (i0 b v x)) (snd (i0 b (false, snd v) x)) &&
  (negb (vz (i0 b v (false, false))) || vz v) && (negb (vz (i0 true v x) && vz (i0 false v x)) || vz x)) = true.
Proof. destruct Hg2 as [-> | ->]; vm_compute; reflexivity. Qed.

Lemma tl_fst b u e f f' : okl u -> (forall j, In j (sup u) -> fst (f j) = fst (f' j)) -> forall j, In j (sup u) -> fst (tl b u e f j) = fst (tl b u e f' j).
Proof.
  intros Hu H j Hj. destruct u as [a c|q]; cbn in Hu, Hj.
  - pose proof (H a (or_introl eq_refl)) as Ha. pose proof (H c (or_intror (or_introl eq_refl))) as Hc. destruct (tl_pair b a c e f Hu) as [A C], (tl_pair b a c e f' Hu) as [A' C'].
    pose proof (cases_ok _ pair_fst b (f a) (f c) (e a) (e c)) as K. pose proof (cases_ok _ pair_fst b (f' a) (f' c) (e a) (e c)) as K'. cbn [forallb] in K, K'. rewrite !andb_true_iff, !eqb_eq in K, K'. unfold p01g in K, K'. rewrite Ha, Hc in K. destruct Hj as [<-|[<-|[]]]; [rewrite A, A'|rewrite C, C']; (etransitivity; [apply K|symmetry; apply K']).
  - pose proof (H q (or_introl eq_refl)) as Ha. destruct Hj as [<-|[]]. rewrite (tl_idle b q e f), (tl_idle b q e f'). pose proof (cases_ok _ idle_all b (f q) (f q) (e q) (e q)) as K. pose proof (cases_ok _ idle_all b (f' q) (f q) (e q) (e q)) as K'. cbn beta in K, K'. rewrite !andb_true_iff, !eqb_eq in K, K'. unfold i0g in K, K'. rewrite Ha in K. etransitivity; [apply K|symmetry; apply K'].
Qed.
Lemma tl_snd b u e f f' : okl u -> (forall j, In j (sup u) -> snd (f j) = snd (f' j)) -> forall j, In j (sup u) -> snd (tl b u e f j) = snd (tl b u e f' j).
Proof.
  intros Hu H j Hj. destruct u as [a c|q]; cbn in Hu, Hj.
  - pose proof (H a (or_introl eq_refl)) as Ha. pose proof (H c (or_intror (or_introl eq_refl))) as Hc. destruct (tl_pair b a c e f Hu) as [A C], (tl_pair b a c e f' Hu) as [A' C'].
    pose proof (cases_ok _ pair_snd b (f a) (f c) (e a) (e c)) as K. pose proof (cases_ok _ pair_snd b (f' a) (f' c) (e a) (e c)) as K'. cbn [forallb] in K, K'. rewrite !andb_true_iff, !eqb_eq in K, K'. unfold p01g in K, K'. rewrite Ha, Hc in K. destruct Hj as [<-|[<-|[]]]; [rewrite A, A'|rewrite C, C']; (etransitivity; [apply K|symmetry; apply K']).
  - pose proof (H q (or_introl eq_refl)) as Ha. destruct Hj as [<-|[]]. rewrite (tl_idle b q e f), (tl_idle b q e f'). pose proof (cases_ok _ idle_all b (f q) (f q) (e q) (e q)) as K. pose proof (cases_ok _ idle_all b (f' q) (f q) (e q) (e q)) as K'. cbn beta in K, K'. rewrite !andb_true_iff, !eqb_eq in K, K'. unfold i0g in K, K'. rewrite Ha in K. etransitivity; [apply K|symmetry; apply K'].
Qed.
Lemma tl_zero b u e f : okl u -> z0 e (sup u) -> z0 (tl b u e f) (sup u) -> z0 f (sup u).
Proof.
  intros Hu He H. destruct u as [a c|q]; cbn in Hu.
  - pose proof (H a (or_introl eq_refl)) as Ha. pose proof (H c (or_intror (or_introl eq_refl))) as Hc. pose proof (He a (or_introl eq_refl)) as Ea. pose proof (He c (or_intror (or_introl eq_refl))) as Ec.
    destruct (tl_pair b a c e f Hu) as [A C]. rewrite A, Ea, Ec in Ha. rewrite C, Ea, Ec in Hc. pose proof (cases_ok _ pair_zero b (f a) (f c) (e a) (e c)) as K. cbn beta in K. unfold p01g in K. rewrite Ha, Hc in K. cbn in K. rewrite andb_true_iff, !vz_ok in K. intros j [<-|[<-|[]]]; apply K.
  - pose proof (H q (or_introl eq_refl)) as Ha. pose proof (He q (or_introl eq_refl)) as Ea. rewrite (tl_idle b q e f), Ea in Ha. pose proof (cases_ok _ idle_all b (f q) (f q) (e q) (e q)) as K. cbn beta in K. rewrite !andb_true_iff in K. destruct K as [[_ K] _]. unfold i0g in K. rewrite Ha in K. cbn in K. apply vz_ok in K. intros j [<-|[]]. exact K.
Qed.
Lemma tl_both u e f : okl u -> z0 (tl true u e f) (sup u) -> z0 (tl false u e f) (sup u) -> z0 e (sup u).
Proof.
  intros Hu He H. destruct u as [a c|q]; cbn in Hu.
  - pose proof (H a (or_introl eq_refl)) as Ha. pose proof (H c (or_intror (or_introl eq_refl))) as Hc. pose proof (He a (or_introl eq_refl)) as Ea. pose proof (He c (or_intror (or_introl eq_refl))) as Ec.
    destruct (tl_pair true a c e f Hu) as [A C], (tl_pair false a c e f Hu) as [A' C']. rewrite A in Ea. rewrite C in Ec. rewrite A' in Ha. rewrite C' in Hc. pose proof (cases_ok _ pair_both true (f a) (f c) (e a) (e c)) as K. cbn beta in K. unfold p01g in K. rewrite Ha, Hc, Ea, Ec in K. cbn in K. rewrite andb_true_iff, !vz_ok in K. intros j [<-|[<-|[]]]; apply K.
  - pose proof (H q (or_introl eq_refl)) as Ha. pose proof (He q (or_introl eq_refl)) as Ea. rewrite (tl_idle false q e f) in Ha. rewrite (tl_idle true q e f) in Ea. pose proof (cases_ok _ idle_all true (f q) (f q) (e q) (e q)) as K. cbn beta in K. rewrite !andb_true_iff in K. destruct K as [_ K]. unfold i0g in K. rewrite Ha, Ea in K. cbn in K. apply vz_ok in K. intros j [<-|[]]. exact K.
Qed.

(** ** All the layers of a trap *)
Fixpoint steps (lss : list (list loc)) (es : list error) (bs : bits) (f : error) : error :=
  match lss, es with
  | ls :: lss', e :: es' => steps lss' es' (skipn (length ls) bs) (Tl (firstn (length ls) bs) ls e f)
  | _, _ => f
  end.
Definition total (lss : list (list loc)) : nat := length (concat lss).
Variable n : nat.
Definition good_locs (ls : list loc) : Prop := NoDup (sups ls) /\ Forall okl ls /\ forall j, In j (sups ls) <-> j < n.
Definition zero (f : error) : Prop := forall j, j < n -> f j = (false, false).
Lemma at_loc ls j : good_locs ls -> j < n -> exists k u, nth_error ls k = Some u /\ In j (sup u) /\ okl u.
Proof.
  intros (_ & Ho & Hc) Hj. apply Hc in Hj. apply in_flat_map in Hj as (u & Hu & Hj). destruct (In_nth_error _ _ Hu) as [k Hk]. exists k, u. rewrite Forall_forall in Ho. auto.
Qed.
Lemma bit_at (bs : bits) k (ls : list loc) u : length bs = length ls -> nth_error ls k = Some u -> exists b, nth_error bs k = Some b.
Proof. intros H Hk. destruct (nth_error bs k) eqn:E; eauto. apply nth_error_None in E. assert (k < length ls) by (apply nth_error_Some; congruence). lia. Qed.
Lemma sup_lt ls k u j : good_locs ls -> nth_error ls k = Some u -> In j (sup u) -> j < n.
Proof. intros (_ & _ & Hc) Hu Hj. apply Hc, in_flat_map. exists u. split; [apply (nth_error_In _ _ Hu)|exact Hj]. Qed.
Lemma T_fst ls bs e f f' : good_locs ls -> length bs = length ls -> (forall j, j < n -> fst (f j) = fst (f' j)) -> forall j, j < n -> fst (Tl bs ls e f j) = fst (Tl bs ls e f' j).
Proof.
  intros G Hb H j Hj. destruct (at_loc ls j G Hj) as (k & u & Hu & Hi & Ho). destruct (bit_at bs k ls u Hb Hu) as [b Hk]. rewrite !(T_at ls bs k u b _ _ j (proj1 G) Hu Hk Hi). apply tl_fst; [exact Ho| |exact Hi]. intros q Hq. apply H, (sup_lt ls k u q G Hu Hq).
Qed.
Lemma T_snd ls bs e f f' : good_locs ls -> length bs = length ls -> (forall j, j < n -> snd (f j) = snd (f' j)) -> forall j, j < n -> snd (Tl bs ls e f j) = snd (Tl bs ls e f' j).
Proof.
  intros G Hb H j Hj. destruct (at_loc ls j G Hj) as (k & u & Hu & Hi & Ho). destruct (bit_at bs k ls u Hb Hu) as [b Hk]. rewrite !(T_at ls bs k u b _ _ j (proj1 G) Hu Hk Hi). apply tl_snd; [exact Ho| |exact Hi]. intros q Hq. apply H, (sup_lt ls k u q G Hu Hq).
Qed.
Lemma T_zero ls bs e f : good_locs ls -> length bs = length ls -> zero e -> zero (Tl bs ls e f) -> zero f.
Proof.
  intros G Hb He H j Hj. destruct (at_loc ls j G Hj) as (k & u & Hu & Hi & Ho). destruct (bit_at bs k ls u Hb Hu) as [b Hk]. apply (tl_zero b u e f Ho); [| |exact Hi].
  - intros q Hq. apply He, (sup_lt ls k u q G Hu Hq).
  - intros q Hq. rewrite <- (T_at ls bs k u b _ _ q (proj1 G) Hu Hk Hq). apply H, (sup_lt ls k u q G Hu Hq).
Qed.
Definition flip (c : nat) (bs : bits) : bits := set1 bs c (negb (nth c bs false)).
Lemma T_both ls e : good_locs ls -> nontrivial n e -> exists c, c < length ls /\ forall bs f, length bs = length ls -> ~ (zero (Tl bs ls e f) /\ zero (Tl (flip c bs) ls e f)).
Proof.
  intros G (j & Hj & Hn). destruct (at_loc ls j G Hj) as (k & u & Hu & Hi & Ho). exists k. assert (Hk : k < length ls) by (apply nth_error_Some; congruence). split; [exact Hk|]. intros bs f Hb [Z1 Z2]. destruct (bit_at bs k ls u Hb Hu) as [b Hbk].
  assert (Hb2 : nth_error (flip k bs) k = Some (negb b)).
  { unfold flip. rewrite (nth_error_nth _ _ false Hbk). rewrite (nth_error_nth' _ false) by (rewrite length_set1; lia). rewrite nth_set1_eq by lia. reflexivity. }
  assert (A : z0 (tl b u e f) (sup u)) by (intros q Hq; rewrite <- (T_at ls bs k u b _ _ q (proj1 G) Hu Hbk Hq); apply Z1, (sup_lt ls k u q G Hu Hq)).
  assert (B : z0 (tl (negb b) u e f) (sup u)) by (intros q Hq; rewrite <- (T_at ls _ k u _ _ _ q (proj1 G) Hu Hb2 Hq); apply Z2, (sup_lt ls k u q G Hu Hq)).
  apply Hn. destruct b; apply (tl_both u e f Ho); auto.
Qed.
Lemma steps_fst lss : Forall good_locs lss -> forall es bs f f', length bs = total lss -> (forall j, j < n -> fst (f j) = fst (f' j)) -> forall j, j < n -> fst (steps lss es bs f j) = fst (steps lss es bs f' j).
Proof.
  induction 1 as [|ls lss G Gs IH]; intros es bs f f' Hb H; [exact H|]. destruct es as [|e es]; [exact H|]. unfold total in Hb. cbn in Hb. rewrite app_length in Hb. cbn [steps]. apply IH; [rewrite skipn_length; unfold total; lia|]. apply T_fst; auto. rewrite firstn_length. lia.
Qed.
Lemma steps_snd lss : Forall good_locs lss -> forall es bs f f', length bs = total lss -> (forall j, j < n -> snd (f j) = snd (f' j)) -> forall j, j < n -> snd (steps lss es bs f j) = snd (steps lss es bs f' j).
Proof.
  induction 1 as [|ls lss G Gs IH]; intros es bs f f' Hb H; [exact H|]. destruct es as [|e es]; [exact H|]. unfold total in Hb. cbn in Hb. rewrite app_length in Hb. cbn [steps]. apply IH; [rewrite skipn_length; unfold total; lia|]. apply T_snd; auto. rewrite firstn_length. lia.
Qed.
Lemma steps_zero lss : Forall good_locs lss -> forall es bs f, length bs = total lss -> Forall zero es -> zero (steps lss es bs f) -> zero f.
Proof.
  induction 1 as [|ls lss G Gs IH]; intros es bs f Hb He H; [exact H|]. destruct es as [|e es]; [exact H|]. unfold total in Hb. cbn in Hb. rewrite app_length in Hb. cbn [steps] in H. apply Forall_cons_iff in He as [He Hes]. apply IH in H; [|rewrite skipn_length; unfold total; lia|exact Hes]. apply T_zero in H; auto. rewrite firstn_length. lia.
Qed.
Lemma nontrivial_dec e : nontrivial n e \/ zero e.
Proof.
  destruct (forallb (fun j => vz (e j)) (seq 0 n)) eqn:E.
  - right. rewrite forallb_forall in E. intros j Hj. apply vz_ok, E, in_seq. lia.
  - left. assert (X : exists j, In j (seq 0 n) /\ vz (e j) = false) by (clear -E; induction (seq 0 n) as [|a l IH]; [discriminate|]; cbn in E; apply andb_false_iff in E as [E|E]; [exists a; cbn; auto|destruct (IH E) as (j & A & B); exists j; cbn; auto]).
    destruct X as (j & Hj & Hz). apply in_seq in Hj. exists j. split; [lia|]. intros C. apply vz_ok in C. congruence.
Qed.
Lemma some_nontrivial es : Exists (nontrivial n) es \/ Forall zero es.
Proof. induction es as [|e es IH]; [right; constructor|]. destruct (nontrivial_dec e) as [H|H]; [left; constructor; exact H|]. destruct IH as [I|I]; [left; apply Exists_cons_tl, I|right; constructor; assumption]. Qed.
Lemma set1_firstn (bs : bits) c v m : firstn m (set1 bs c v) = set1 (firstn m bs) c v.
Proof. revert c m. induction bs as [|b bs IH]; intros c m; [destruct c, m; reflexivity|]. destruct c as [|c], m as [|m]; cbn; try reflexivity. f_equal. apply IH. Qed.
Lemma skipn_set1_lt (bs : bits) c v m : c < m -> skipn m (set1 bs c v) = skipn m bs.
Proof. revert c m. induction bs as [|b bs IH]; intros c m H; [destruct c, m; reflexivity|]. destruct c as [|c], m as [|m]; cbn; try reflexivity; try lia. apply IH. lia. Qed.
Lemma skipn_set1_ge (bs : bits) c v m : skipn m (set1 bs (m + c) v) = set1 (skipn m bs) c v.
Proof. revert m. induction bs as [|b bs IH]; intros m; [destruct m, c; reflexivity|]. destruct m as [|m]; cbn; [reflexivity|]. apply IH. Qed.
Lemma firstn_set1_ge (bs : bits) c v m : m <= c -> firstn m (set1 bs c v) = firstn m bs.
Proof. revert c m. induction bs as [|b bs IH]; intros c m H; [destruct c, m; reflexivity|]. destruct c as [|c], m as [|m]; cbn; try reflexivity; try lia. f_equal. apply IH. lia. Qed.
Lemma nth_firstn_lt (bs : bits) c m : c < m -> nth c (firstn m bs) false = nth c bs false.
Proof. revert c m. induction bs as [|b bs IH]; intros c m H; [destruct c, m; reflexivity|]. destruct c as [|c], m as [|m]; cbn; try reflexivity; try lia. apply IH. lia. Qed.
Lemma nth_skipn_add (bs : bits) c m : nth c (skipn m bs) false = nth (m + c) bs false.
Proof. revert m. induction bs as [|b bs IH]; intros m; [destruct m, c; reflexivity|]. destruct m as [|m]; cbn; [reflexivity|]. apply IH. Qed.
Lemma steps_both lss : Forall good_locs lss -> forall es, length es = length lss -> Exists (nontrivial n) es ->
  exists c, c < total lss /\ forall bs f, length bs = total lss -> ~ (zero (steps lss es bs f) /\ zero (steps lss es (flip c bs) f)).
Proof.
  induction 1 as [|ls lss G Gs IH]; intros es Hl He; [destruct es; [inversion He|discriminate]|]. destruct es as [|e es]; [discriminate|]. injection Hl as Hl. unfold total. cbn [concat]. rewrite app_length.
  destruct (some_nontrivial es) as [Hx|Hz].
  - destruct (IH es Hl Hx) as (c & Hc & H). exists (length ls + c). split; [unfold total in Hc; lia|]. intros bs f Hb [A B]. cbn [steps] in A, B. unfold flip in B. rewrite firstn_set1_ge in B by lia. rewrite skipn_set1_ge in B.
    apply (H (skipn (length ls) bs) (Tl (firstn (length ls) bs) ls e f)); [rewrite skipn_length; unfold total; lia|]. split; [exact A|]. unfold flip. rewrite nth_skipn_add. exact B.
  - assert (Hn : nontrivial n e). { inversion He; subst; [assumption|]. exfalso. match goal with X : Exists _ es |- _ => apply Exists_exists in X; destruct X as (x & Ix & j & Hj & Hx) end. rewrite Forall_forall in Hz. apply Hx, (Hz x Ix j Hj). }
    destruct (T_both ls e G Hn) as (c & Hc & H). exists c. split; [lia|]. intros bs f Hb [A B]. cbn [steps] in A, B. unfold flip in B. rewrite set1_firstn, skipn_set1_lt in B by exact Hc.
    apply steps_zero in A; auto; [|rewrite skipn_length; unfold total; lia]. apply steps_zero in B; auto; [|rewrite skipn_length; unfold total; lia].
    apply (H (firstn (length ls) bs) f); [rewrite firstn_length; lia|]. split; [exact A|]. unfold flip. rewrite nth_firstn_lt by exact Hc. exact B.
Qed.

(** What a trap shows: [b] is the choice of basis. *)
Definition hg : list ginstr := gates (map had (seq 0 n)).
Definition shown (lss : list (list loc)) (es : list error) (p : nat -> bool) (bs : bits) : error :=
  let hs := if nth 0 bs false then hg else [] in frs hs (steps lss es (List.tl bs) (frs hs (flipped p))).
Definition silent (f : error) : bool := forallb (fun j => negb (snd (f j))) (seq 0 n).
Lemma hg_at f j : j < n -> frs hg f j = (snd (f j), fst (f j)).
Proof.
  unfold hg. intros Hj. assert (G : forall l f, NoDup l -> frs (gates (map had l)) f j = if mem j l then (snd (f j), fst (f j)) else f j).
  { clear f Hj. induction l as [|a l IH]; intros f ND; [reflexivity|]. inversion ND as [|? ? N1 N2]; subst. change (frs (gates (map had (a :: l))) f) with (frs (gates (map had l)) (fr (gq "h" [a]) f)). rewrite IH by exact N2.
    assert (Ea : fr (gq "h" [a]) f j = if j =? a then (snd (f a), fst (f a)) else f j) by reflexivity. rewrite Ea. cbn [mem existsb]. unfold mem. cbn [existsb]. change (existsb (eqb j) l) with (mem j l). destruct (Nat.eqb_spec j a) as [->|Na].
    - assert (M : mem a l = false) by (destruct (mem a l) eqn:M; [apply mem_In in M; contradiction|reflexivity]). rewrite M. rewrite eqb_refl. reflexivity.
    - destruct (eqb_spec j a); [contradiction|]. reflexivity. }
  rewrite G by apply seq_NoDup. assert (M : mem j (seq 0 n) = true) by (apply mem_In, in_seq; lia). rewrite M. reflexivity.
Qed.
Lemma silent_iff f : silent f = true <-> forall j, j < n -> snd (f j) = false.
Proof.
  unfold silent. rewrite forallb_forall. split; intros H j Hj; [specialize (H j); rewrite in_seq in H; apply negb_true_iff, H; lia|apply in_seq in Hj; apply negb_true_iff, H; lia].
Qed.
Lemma silent_both lss es p bs : Forall good_locs lss -> length bs = total lss -> silent (shown lss es p (false :: bs)) = true -> silent (shown lss es p (true :: bs)) = true ->
  zero (steps lss es bs (fun q => (p q, p q))).
Proof.
  intros G Hb A B j Hj. rewrite silent_iff in A, B. specialize (A j Hj). specialize (B j Hj). unfold shown in A, B. cbn [nth List.tl] in A, B. rewrite hg_at in B by exact Hj. cbn [snd] in B.
  rewrite (surjective_pairing (steps lss es bs (fun q => (p q, p q)) j)). f_equal.
  - rewrite (steps_fst lss G es bs _ (frs hg (flipped p)) Hb) by (auto; intros k Hk; rewrite hg_at by exact Hk; reflexivity). exact B.
  - rewrite (steps_snd lss G es bs _ (flipped p) Hb) by (auto; intros k Hk; reflexivity). exact A.
Qed.
(** Among four choices one shows the errors. *)
Theorem four_choices lss es p : Forall good_locs lss -> length es = length lss -> Exists (nontrivial n) es ->
  exists c, 0 < c /\ c < S (total lss) /\ forall bs, length bs = S (total lss) ->
    exists bs', In bs' [bs; flip 0 bs; flip c bs; flip 0 (flip c bs)] /\ silent (shown lss es p bs') = false.
Proof.
  intros G Hl He. destruct (steps_both lss G es Hl He) as (c & Hc & H). exists (S c). split; [lia|]. split; [lia|]. intros bs Hb. destruct bs as [|b bs]; [discriminate|]. injection Hb as Hb.
  destruct (silent (shown lss es p (b :: bs))) eqn:S1; [|exists (b :: bs); split; [left; reflexivity|exact S1]].
  destruct (silent (shown lss es p (negb b :: bs))) eqn:S2; [|exists (negb b :: bs); split; [right; left; reflexivity|exact S2]].
  destruct (silent (shown lss es p (b :: flip c bs))) eqn:S3; [|exists (b :: flip c bs); split; [right; right; left; reflexivity|exact S3]].
  destruct (silent (shown lss es p (negb b :: flip c bs))) eqn:S4; [|exists (negb b :: flip c bs); split; [right; right; right; left; reflexivity|exact S4]].
  exfalso. apply (H bs (fun q => (p q, p q)) Hb). split; apply silent_both; auto; destruct b; auto; unfold flip; rewrite length_set1; exact Hb.
Qed.
End G2.
