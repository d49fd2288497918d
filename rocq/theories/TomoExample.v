(** State tomography of |1>, an instance of C62. *)
From Coq Require Import QArith Qreals Reals Lra.
From Coquelicot Require Import Coquelicot.
From Verif Require Import LinAlg Base ResultFacts PyStr CountsModel MeasCalModel QSem DihedralModel RBSeqModel RBSeqSpec CtmpSpec StdGates AccSpec EntSpec
  TomoModel TomoSpec TomoFitModel TomoFitSpec TomoLayerProofs TomoBasisProofs TomoBornProofs TomoDataProofs TomoCompleteProofs TomoPsdSpec TomoFitProofs TomoPoolSpec TomoPoolProofs.
Local Open Scope string_scope.
Local Open Scope list_scope.
Local Open Scope nat_scope.

Definition xg : cinstr := g1 "x" [] 0.
Definition c62 : tcirc := {| t_name := str "one"; t_width := 1; t_cregs := []; t_body := [xg] |}.
Definition cs62 : list tcirc := match state_tomography_circuits c62 [0] (LTuple [str "X"; str "Y"; str "Z"]) (BName (str "Pauli")) with Ok l => l | Err _ => [] end.
Definition ex (name : string) (c : counts) : experiment := {| e_name := str name; e_counts := c |}.
Definition r62 : qresult := [ex "('X',)" [(str "0", 50%Z); (str "1", 50%Z)]; ex "('Y',)" [(str "1", 50%Z); (str "0", 50%Z)]; ex "('Z',)" [(str "1", 100%Z)]].
Definition f62 : fitter := match new_fitter [r62] (map CCirc cs62) (BName (str "Pauli")) BNone with Ok f => f | Err _ => {| ft_meas := None; ft_prep := None; ft_data := [] |} end.

Lemma run_acts (ops : list (op C)) V x : acts ops 0 V -> run ops (ground 1) [x] = V x false.
Proof. intros H. rewrite H by (cbn; lia). cbn [nth set1]. change (ground 1 [false]) with (f1 : C). change (ground 1 [true]) with (f0 : C). apply injective_projections; cbn; ring. Qed.
Lemma prob1 body gs V o : gates body = gs -> filter is_measure body = [CMeasure 0 0] -> acts (map (op_of tgate) gs) 0 V ->
  prob tgate (HK:=Fld_R) sqmod 1 1 body (key_of [o]) = (sqmod (V o false) / (sqmod (V false false) + sqmod (V true false)))%R.
Proof.
  intros E Hm Ha. unfold prob, AccSpec.total, final. rewrite E. cbn [cube map app]. rewrite !fsum_cons, !fsum_nil, !(run_acts _ V _ Ha).
  assert (R : forall y, reads 1 body [y] = [y]) by (intros y; rewrite reads_filter, Hm; reflexivity). rewrite !R.
  unfold f0, f1, fdiv, fadd, fmul, finv. cbn [Fld_R]. destruct o.
  - change (eqb (key_of [false]) (key_of [true])) with false. change (eqb (key_of [true]) (key_of [true])) with true. cbn iota. cbn. f_equal; [|f_equal]; lra.
  - change (eqb (key_of [false]) (key_of [false])) with true. change (eqb (key_of [true]) (key_of [false])) with false. cbn iota. cbn. f_equal; [|f_equal]; lra.
Qed.
Lemma sq_r : sqmod (RtoC (/ sqrt 2)) = (1 / 2)%R. Proof. unfold sqmod. cbn. pose proof s2_sq. lra. Qed.
Definition V1 : bool -> bool -> C := fun a b => ifb (xorb a b).
Lemma x_acts : acts (map (op_of tgate) [{| gname := str "x"; gparams := []; gqubits := [0] |}]) 0 (fun a b => tgate (str "x") [] [a] [b]).
Proof. apply acts_gate. Qed.
Ltac vals := unfold mul2; rewrite ?(sg_h _ _ _ (tg_std _ tgate_ok)), ?(sg_sdg _ _ _ (tg_std _ tgate_ok)), ?(sg_x _ _ _ (tg_std _ tgate_ok)).
Lemma exact_of body gs V cts (a b : Z) : gates body = gs -> filter is_measure body = [CMeasure 0 0] -> acts (map (op_of tgate) gs) 0 V ->
  count_of cts (str "0") = a -> count_of cts (str "1") = b -> (0 <= a)%Z -> (0 <= b)%Z -> (0 < a + b)%Z ->
  (forall o : bool, (IZR (if o then b else a) / IZR (a + b))%R = (sqmod (V o false) / (sqmod (V false false) + sqmod (V true false)))%R) ->
  exact_counts tgate 1 1 body cts.
Proof.
  intros Hg Hm Ha Ea Eb H0 H1 Hp H. assert (S : shots_of 1 cts = (a + b)%Z) by (unfold shots_of; cbn [cube map app fold_right]; change (key_of [false]) with (str "0"); change (key_of [true]) with (str "1"); rewrite Ea, Eb; lia).
  split; [rewrite S; exact Hp|]. intros z Hz. destruct z as [|o [|? ?]]; try discriminate Hz. rewrite S, (prob1 body gs V o Hg Hm Ha), <- H.
  destruct o; [change (key_of [true]) with (str "1"); rewrite Eb|change (key_of [false]) with (str "0"); rewrite Ea]; (split; [assumption|reflexivity]).
Qed.
Lemma exact_X cts : count_of cts (str "0") = 50%Z -> count_of cts (str "1") = 50%Z -> exact_counts tgate 1 1 ([xg] ++ CBarrier (seq 0 1) :: pauli_measurement_circuit (str "X") 0 0) cts.
Proof.
  intros Ha Hb. eapply (exact_of _ _ _ cts 50 50); [reflexivity|reflexivity| |exact Ha|exact Hb|lia|lia|lia|].
  - exact (acts_app _ _ _ _ _ x_acts (acts_gate tgate (str "h") [] 0)).
  - intros o. vals. assert (E : forall a : bool, sqmod (fadd (fmul (fmul (RtoC (/ sqrt 2)) (sgn (a && false))) (ifb (xorb false false))) (fmul (fmul (RtoC (/ sqrt 2)) (sgn (a && true))) (ifb (xorb true false)))) = (1 / 2)%R)
      by (intros a; rewrite <- sq_r; unfold sqmod; destruct a; cbn; ring). 
    destruct o; cbn [andb] in *; pose proof (E true) as E1; pose proof (E false) as E2; cbn [andb] in E1, E2; rewrite ?E1, ?E2; cbn; lra.
Qed.
Lemma exact_Y cts : count_of cts (str "0") = 50%Z -> count_of cts (str "1") = 50%Z -> exact_counts tgate 1 1 ([xg] ++ CBarrier (seq 0 1) :: pauli_measurement_circuit (str "Y") 0 0) cts.
Proof.
  intros Ha Hb. eapply (exact_of _ _ _ cts 50 50); [reflexivity|reflexivity| |exact Ha|exact Hb|lia|lia|lia|].
  - exact (acts_app _ _ _ _ _ x_acts (acts_app _ _ _ _ _ (acts_gate tgate (str "sdg") [] 0) (acts_gate tgate (str "h") [] 0))).
  - intros o. set (W := mul2 _ _). assert (E : forall a : bool, sqmod (W a false) = (1 / 2)%R).
    { intros a. unfold W. vals. rewrite <- sq_r. unfold sqmod. destruct a; cbn; ring. }
    rewrite !E. destruct o; cbn; lra.
Qed.
Lemma exact_Z cts : count_of cts (str "0") = 0%Z -> count_of cts (str "1") = 100%Z -> exact_counts tgate 1 1 ([xg] ++ CBarrier (seq 0 1) :: pauli_measurement_circuit (str "Z") 0 0) cts.
Proof.
  intros Ha Hb. eapply (exact_of _ _ _ cts 0 100); [reflexivity|reflexivity| |exact Ha|exact Hb|lia|lia|lia|].
  - exact x_acts.
  - intros o. vals. destruct o; unfold sqmod; cbn; lra.
Qed.
Definition d62 : meas_data := {| md_labels := [str "X"; str "Y"; str "Z"]; md_circuit := pauli_measurement_circuit; md_matrix := pauli_measurement_matrix |}.
Lemma f62_data : ft_data f62 = [(VTup [VStr (str "X")], [(str "0", 50%Z); (str "1", 50%Z)]); (VTup [VStr (str "Y")], [(str "1", 50%Z); (str "0", 50%Z)]); (VTup [VStr (str "Z")], [(str "1", 100%Z)])].
Proof. vm_compute. reflexivity. Qed.
Lemma f62_exact : exact_state_data tgate 1 [xg] [0] d62 (ft_data f62).
Proof.
  rewrite f62_data. split; [discriminate|]. repeat constructor.
  - exists [str "X"]. split; [reflexivity|]. split; [split; [reflexivity|apply Forall_cons; [cbn; auto|constructor]]|]. apply exact_X; reflexivity.
  - exists [str "Y"]. split; [reflexivity|]. split; [split; [reflexivity|apply Forall_cons; [cbn; auto|constructor]]|]. apply exact_Y; reflexivity.
  - exists [str "Z"]. split; [reflexivity|]. split; [split; [reflexivity|apply Forall_cons; [cbn; auto|constructor]]|]. apply exact_Z; reflexivity.
Qed.
Lemma f62_covers : covers_states 1 [str "X"; str "Y"; str "Z"] (ft_data f62).
Proof.
  rewrite f62_data. intros m [Hm H]. destruct m as [|l [|? ?]]; try discriminate Hm. apply Forall_inv in H. cbn in H. destruct H as [<-|[<-|[<-|[]]]]; eexists; [left|right; left|right; right; left]; reflexivity.
Qed.
Lemma final62 x : final tgate 1 [xg] [x] = ifb x.
Proof. unfold final. change (map (op_of tgate) (gates [xg])) with (map (op_of tgate) [{| gname := str "x"; gparams := []; gqubits := [0] |}]). rewrite (run_acts _ _ _ x_acts). vals. now rewrite xorb_false_r. Qed.
Lemma norm62 : norm2 1 (final tgate 1 [xg]) = 1%R.
Proof. unfold norm2. cbn [cube map app]. rewrite !fsum_cons, fsum_nil, !final62. unfold sqmod. cbn. ring. Qed.
Definition rho62 : nat -> nat -> C := state_of tgate 1 [xg] [0].
Lemma rho62_at a b : a < 2 -> b < 2 -> rho62 a b = RtoC (if (a =? 1) && (b =? 1) then 1 else 0).
Proof.
  intros Ha Hb. unfold rho62, state_of. rewrite norm62. unfold reduced. cbn [length cube map app rd nth]. rewrite !fsum_cons, fsum_nil.
  assert (W : forall b x, wr [0] [b] [x] = [b]) by reflexivity. destruct a as [|[|a]], b as [|[|b]]; try lia;
    unfold lebits; cbn [Nat.odd Nat.even negb]; rewrite ?W, !final62;
    repeat match goal with |- context[eqb ?u ?v] => let r := eval vm_compute in (eqb u v) in change (eqb u v) with r end; cbn iota; apply injective_projections; cbn; field.
Qed.
Definition lstsq62 (a : list (list C)) (b : list C) : list C := vec 2 rho62.
Definition eigh62 (m : cmat) : (nat -> R) * (nat -> nat -> C) := (fun j => if j =? 1 then 1%R else 0%R, fun a j => if a =? j then RtoC 1 else RtoC 0).
Lemma eigh62_ok m : same_entries 2 (m_at m) rho62 -> eigen_of 2 (m_at m) (fst (eigh62 m)) (snd (eigh62 m)).
Proof.
  intros H. split.
  - intros a b Ha Hb. rewrite H, rho62_at by assumption. cbn [seq map]. rewrite !fsum_cons, fsum_nil. destruct a as [|[|a]], b as [|[|b]]; try lia; apply injective_projections; cbn; ring.
  - intros j k Hj Hk. cbn [seq map]. rewrite !fsum_cons, fsum_nil. destruct j as [|[|a]], k as [|[|b]]; try lia; apply injective_projections; cbn; ring.
Qed.
Lemma lstsq62_ok weighted beta data rows w : (0 <= beta)%R -> fitter_data f62 weighted beta = Ok (data, rows, w) ->
  least_squares 4 (fst (fit_system rows data w)) (snd (fit_system rows data w)) (lstsq62 (fst (fit_system rows data w)) (snd (fit_system rows data w))).
Proof.
  intros Hb E. split; [reflexivity|]. intros y _. unfold lstsq62.
  destruct (state_system tgate 1 [xg] [0] PauliBasis d62 f62) with (weighted := weighted) (beta := beta) as (data' & rows' & w' & E' & A & _ & _ & G & _); auto.
  - discriminate.
  - constructor; [intros []|constructor].
  - repeat constructor.
  - apply (pauli_meas_sound tgate tgate_ok). reflexivity.
  - exact f62_exact.
  - rewrite norm62. lra.
  - rewrite E in E'. injection E' as <- <- <-. change (2 ^ length [0]) with 2 in A. fold rho62 in A.
    rewrite (residual_exact _ _ (vec 2 rho62)); [apply residual_nonneg|]. apply (proj2 (proj1 (system_iff rows data w _ G) A)).
Qed.
