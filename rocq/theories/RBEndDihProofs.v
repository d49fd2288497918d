(** The CNOT-dihedral group over the complex numbers (C79). *)
From Coq Require Import QArith Qcanon Qreals Reals Lra Lia.
From Coquelicot Require Import Coquelicot.
From Verif Require Import LinAlg Base PyStr QSem Cyc GateMat DihedralModel DihedralSpec DihedralDecompProofs ResultFacts RBSeqModel RBSeqSpec RBSeqProofs RBSeqActProofs RBSeqTopProofs RBSeqIdProofs RBSeqDihProofs RBSeqFinalProofs DihedralMatProofs
  AccProbProofs EntSpec GstOptSpec RBEstSpec RBNoiseProofs RBEndSpec RBEndProofs RBEndDihSpec.
Local Open Scope list_scope.
Local Open Scope nat_scope.

(** ** The embedding is a homomorphism *)
Lemma real_0 : real 0 = 0%R. Proof. unfold real. cbn. unfold Q2R. cbn. lra. Qed.
Lemma real_1 : real 1 = 1%R. Proof. unfold real. cbn. unfold Q2R. cbn. lra. Qed.
Lemma real_add x y : real (x + y) = (real x + real y)%R.
Proof. unfold real, Qcplus. cbn [this Q2Qc]. rewrite (Qeq_eqR _ _ (Qred_correct _)). apply Q2R_plus. Qed.
Lemma real_mul x y : real (x * y) = (real x * real y)%R.
Proof. unfold real, Qcmult. cbn [this Q2Qc]. rewrite (Qeq_eqR _ _ (Qred_correct _)). apply Q2R_mult. Qed.
Lemma real_opp x : real (- x) = (- real x)%R.
Proof. unfold real, Qcopp. cbn [this Q2Qc]. rewrite (Qeq_eqR _ _ (Qred_correct _)). apply Q2R_opp. Qed.
Lemma real_sub x y : real (x - y) = (real x - real y)%R.
Proof. unfold Qcminus. rewrite real_add, real_opp. reflexivity. Qed.
Lemma half_sq : (/ sqrt 2 * / sqrt 2 = / 2)%R.
Proof. rewrite <- Rinv_mult. rewrite sqrt_sqrt by lra. reflexivity. Qed.
Lemma w8_4 : (w8 * w8 * w8 * w8 = - RtoC 1)%C.
Proof. pose proof half_sq as E. unfold w8. revert E. generalize (/ sqrt 2)%R. intros s E. apply injective_projections; cbn; nra. Qed.
Lemma embed_0 : embed cy0 = f0. Proof. unfold embed, cy0. cbn [ca cb cc cd]. rewrite real_0. toC. ring. Qed.
Lemma embed_1 : embed cy1 = f1. Proof. unfold embed, cy1. cbn [ca cb cc cd]. rewrite real_0, real_1. toC. ring. Qed.
Lemma embed_add x y : embed (cyadd x y) = fadd (embed x) (embed y).
Proof. unfold embed, cyadd. cbn [ca cb cc cd]. rewrite !real_add, !RtoC_plus. toC. ring. Qed.
Lemma embed_mul x y : embed (cymul x y) = fmul (embed x) (embed y).
Proof.
  unfold embed, cymul. cbn [ca cb cc cd]. rewrite !real_sub, !real_add, !real_mul, !RtoC_plus, !RtoC_minus, ?real_mul, !RtoC_plus, !RtoC_mult. toC.
  generalize (RtoC (real (ca x))) (RtoC (real (cb x))) (RtoC (real (cc x))) (RtoC (real (cd x))) (RtoC (real (ca y))) (RtoC (real (cb y))) (RtoC (real (cc y))) (RtoC (real (cd y))).
  intros a b c d a' b' c' d'. pose proof w8_4 as W. revert W. generalize w8. intros w W.
  transitivity (a * a' + a * b' * w + a * c' * (w * w) + a * d' * (w * w * w) + b * a' * w + b * b' * (w * w) + b * c' * (w * w * w) + b * d' * (w * w * w * w)
    + c * a' * (w * w) + c * b' * (w * w * w) + c * c' * (w * w * w * w) + c * d' * (w * w * w * w) * w
    + d * a' * (w * w * w) + d * b' * (w * w * w * w) + d * c' * (w * w * w * w) * w + d * d' * (w * w * w * w) * (w * w))%C; [rewrite W|]; ring.
Qed.
Lemma embed_conj x : embed (cconj x) = Cconj (embed x).
Proof.
  unfold embed, cconj. cbn [ca cb cc cd]. rewrite !real_opp. pose proof half_sq as E. unfold w8. revert E. generalize (/ sqrt 2)%R (real (ca x)) (real (cb x)) (real (cc x)) (real (cd x)). intros s a b c d E.
  assert (E3 : (s * s * s = / 2 * s)%R) by (rewrite E; reflexivity). apply injective_projections; cbn; ring_simplify; replace (s ^ 3)%R with (s * s * s)%R by ring; rewrite ?E3; replace (s ^ 2)%R with (s * s)%R by ring; rewrite ?E; lra.
Qed.
Lemma embed_neq x : x <> cy0 -> embed x <> f0.
Proof.
  intros Hx E. assert (K : cymul (cyinv x) x = cy1) by (exact (Finv_l cyc_field x Hx)). apply (f_equal embed) in K. rewrite embed_mul, embed_1, E in K. apply (@f1_neq_0 C Fld_C). rewrite <- K. toC. ring.
Qed.
Lemma embed_kernel x : embed x = f0 -> x = cy0.
Proof.
  intros E. assert (D : {x = cy0} + {x <> cy0}).
  { destruct x as [a b c d]. unfold cy0. destruct (Qc_eq_dec a 0) as [-> |Ha]; [|right; congruence]. destruct (Qc_eq_dec b 0) as [-> |Hb]; [|right; congruence].
    destruct (Qc_eq_dec c 0) as [-> |Hc]; [|right; congruence]. destruct (Qc_eq_dec d 0) as [-> |Hd]; [left; reflexivity|right; congruence]. }
  destruct D as [H|H]; [exact H|]. exfalso. exact (embed_neq x H E).
Qed.
Lemma embed_sum {A} (f : A -> cyc) l : embed (fsum (map f l)) = fsum (map (fun a => embed (f a)) l).
Proof. induction l as [|a l IH]; [exact embed_0|]. cbn [map]. rewrite !fsum_cons. change (@fadd cyc _) with cyadd. rewrite embed_add, IH. reflexivity. Qed.

(** ** Actions over the complex numbers *)
Definition eop (o : QSem.op cyc) : QSem.op C := {| o_mat := fun a b => embed (o_mat o a b); o_qs := o_qs o |}.
Lemma apply_embed o psi x : apply (eop o) (fun y => embed (psi y)) x = embed (apply o psi x).
Proof. unfold apply. cbn [eop o_mat o_qs]. rewrite embed_sum. apply fsum_map_ext. intros b _. change (@fmul cyc _) with cymul. rewrite embed_mul. reflexivity. Qed.
Lemma run_embed n c : forall psi x, length x = n -> QSem.run (map eop c) (fun y => embed (psi y)) x = embed (QSem.run c psi x).
Proof.
  induction c as [|o c IH]; intros psi x Hx; [reflexivity|]. cbn [map QSem.run]. rewrite (run_ext n (map eop c) _ (fun y => embed (apply o psi y))); [apply IH; exact Hx| |exact Hx]. intros y _. apply apply_embed.
Qed.
Lemma point_embed y : forall x, point y x = embed (if eqb x y then cy1 else cy0).
Proof. intros x. unfold point. destruct (eqb x y); symmetry; [exact embed_1|exact embed_0]. Qed.
Lemma equiv_embed n c c' : equiv n c c' -> equiv n (map eop c) (map eop c').
Proof.
  intros (k & Hk & H). exists (embed k). split; [exact (embed_neq k Hk)|]. intros psi x Hx. rewrite (run_expand n (map eop c) psi x Hx), (run_expand n (map eop c') psi x Hx), <- fsum_map_mul. apply fsum_map_ext. intros y _.
  assert (E : forall d, QSem.run (map eop d) (point y) x = embed (QSem.run d (fun x => if eqb x y then cy1 else cy0) x)).
  { intros d. rewrite <- (run_embed n d _ x Hx). apply (run_ext n (map eop d)); [|exact Hx]. intros z _. apply point_embed. }
  rewrite !E, (H _ x Hx). change (@fmul cyc _) with cymul. rewrite embed_mul. toC. ring.
Qed.
Lemma eops c : map eop (map (op_of gate_mat) c) = map (op_of cgate) c. Proof. rewrite map_map. reflexivity. Qed.
Lemma same_embed n c c' : same_action gate_mat n c c' -> same_action cgate n c c'.
Proof. intros H. unfold same_action. rewrite <- !eops. apply equiv_embed. exact H. Qed.
Lemma lawful_embed G n valid : lawful gate_mat G n valid -> lawful cgate G n valid.
Proof.
  intros [A B D E]. constructor.
  - exact A.
  - destruct B as (e & E1 & V & I). exists e. split; [exact E1|]. split; [exact V|]. intros c Hc. apply same_embed. exact (I c Hc).
  - intros a b Va Vb. destruct (D a b Va Vb) as (e & E1 & V & I). exists e. split; [exact E1|]. split; [exact V|]. intros x y z Hx Hy Hz. apply same_embed. exact (I x y z Hx Hy Hz).
  - intros a Va. destruct (E a Va) as (i & E1 & F & I). exists i. split; [exact E1|]. split; [exact F|]. intros c Hc. apply same_embed. exact (I c Hc).
Qed.

(** ** The gates of CNOT-dihedral circuits are unitary *)
Definition sums (g : ginstr) : Prop := let k := length (gqubits g) in let m := gate_mat (gname g) (gparams g) in
  forall b b', length b = k -> length b' = k ->
    fsum (map (fun a => cymul (cconj (m a b)) (m a b')) (cube k)) = (if eqb b b' then cy1 else cy0) /\
    fsum (map (fun a => cymul (m b a) (cconj (m b' a))) (cube k)) = (if eqb b b' then cy1 else cy0).
Lemma sums_unitary g : sums g -> unitary_gate cgate g.
Proof.
  intros H b b' Hb Hb'. destruct (H b b' Hb Hb') as [A B]. apply (f_equal embed) in A, B. rewrite embed_sum in A, B. unfold cgate. split.
  - rewrite <- (fsum_map_ext (fun a => embed (cymul (cconj (gate_mat (gname g) (gparams g) a b)) (gate_mat (gname g) (gparams g) a b')))) by (intros a _; rewrite embed_mul, embed_conj; reflexivity).
    rewrite A. destruct (eqb b b'); [exact embed_1|exact embed_0].
  - rewrite <- (fsum_map_ext (fun a => embed (cymul (gate_mat (gname g) (gparams g) b a) (cconj (gate_mat (gname g) (gparams g) b' a))))) by (intros a _; rewrite embed_mul, embed_conj; reflexivity).
    rewrite B. destruct (eqb b b'); [exact embed_1|exact embed_0].
Qed.
Lemma bits1 (b : bits) : length b = 1 -> b = [true] \/ b = [false]. Proof. destruct b as [|[] [|]]; cbn; intros; try discriminate; auto. Qed.
Lemma bits2 (b : bits) : length b = 2 -> b = [true; true] \/ b = [true; false] \/ b = [false; true] \/ b = [false; false].
Proof. destruct b as [|[] [|[] [|]]]; cbn; intros; try discriminate; auto. Qed.
Lemma omega_norm k : cymul (cconj (omega k)) (omega k) = cy1 /\ cymul (omega k) (cconj (omega k)) = cy1.
Proof. rewrite omega_conj, <- !omega_add. split; [replace (- k + k)%Z with 0%Z by lia|replace (k + - k)%Z with 0%Z by lia]; reflexivity. Qed.
Lemma cconj_1 : cconj cy1 = cy1. Proof. cyc_compute. Qed.
Lemma gate_sums n g : valid_gate n g -> shaped n g -> sums g.
Proof.
  intros [_ Hg] Hs. unfold sums. unfold gate_action in Hg.
  destruct (eqb_spec (gname g) (str "x")) as [En|_]; [|destruct (eqb_spec (gname g) (str "y")) as [En|_]; [|destruct (eqb_spec (gname g) (str "z")) as [En|_]; [|destruct (eqb_spec (gname g) (str "u1")) as [En|_]; [|destruct (eqb_spec (gname g) (str "cx")) as [En|_]; [|destruct (eqb_spec (gname g) (str "cz")) as [En|_]; [|destruct (eqb_spec (gname g) (str "id")) as [En|_]; [|congruence]]]]]]].
  1,2,3: rewrite En; destruct (gqubits g) as [|q [|]]; try congruence; intros b b' Hb Hb'; destruct (bits1 b Hb) as [-> | ->], (bits1 b' Hb') as [-> | ->]; split; cyc_compute.
  - rewrite En. destruct (gqubits g) as [|q [|]]; try congruence. destruct (gparams g) as [|a [|]]; try congruence. destruct (Z.pos (Qden a) =? 1)%Z eqn:Ea; [|congruence].
    intros b b' Hb Hb'. destruct (omega_norm (Qnum a)) as [N1 N2].
    assert (E : forall x y, gate_mat (str "u1") [a] [x] [y] = if xorb x y then cy0 else if y then omega (Qnum a) else cy1) by (intros x y; unfold gate_mat, angle; rewrite Ea; reflexivity).
    revert E N1 N2. generalize (omega (Qnum a)). intros w E N1 N2.
    destruct (bits1 b Hb) as [-> | ->], (bits1 b' Hb') as [-> | ->]; cbn [length cube map app]; unfold fsum; cbn [fold_right]; rewrite !E; cbn [xorb]; rewrite ?cconj_0, ?cconj_1, ?N1, ?N2;
      change (@fadd cyc _) with cyadd; change (@f0 cyc _) with cy0; cbn [eqb Bool.eqb andb list_eqb]; split; match goal with |- _ = if ?c then _ else _ => let v := eval vm_compute in c in change c with v; cbv iota | _ => idtac end; ring.
  - rewrite En; destruct (gqubits g) as [|q [|q' [|]]]; try congruence; intros b b' Hb Hb'; destruct (bits2 b Hb) as [-> | [-> | [-> | ->]]], (bits2 b' Hb') as [-> | [-> | [-> | ->]]]; split; cyc_compute.
  - rewrite En; destruct (gqubits g) as [|q [|q' [|]]]; try congruence; intros b b' Hb Hb'; destruct (bits2 b Hb) as [-> | [-> | [-> | ->]]], (bits2 b' Hb') as [-> | [-> | [-> | ->]]]; split; cyc_compute.
  - rewrite En. destruct Hs as [Hs|[q ->]]; [contradiction|]. intros b b' Hb Hb'; destruct (bits1 b Hb) as [-> | ->], (bits1 b' Hb') as [-> | ->]; split; cyc_compute.
Qed.

(** ** A run with the CNOT-dihedral group *)
Lemma dihedral_unitary det_odd draw n e : decides_invertible det_odd -> in_use n e ->
  forall g, In g (circ_of (dihedral_group det_odd draw) e ++ inv_of (dihedral_group det_odd draw) e) -> unitary_gate cgate g.
Proof.
  intros Hdet He g Hg. destruct (decompose_facts det_odd Hdet n e He) as (c & E & _ & V & _). pose proof (decompose_shaped det_odd n e c E) as S. rewrite Forall_forall in S.
  apply sums_unitary. unfold circ_of, inv_of in Hg. cbn in Hg. rewrite E in Hg. cbn in Hg. apply in_app_iff in Hg. destruct Hg as [Hg|Hg].
  - exact (gate_sums n g (V g Hg) (S g Hg)).
  - apply (gate_sums n g (circ_inverse_valid n c V g Hg)). unfold circ_inverse in Hg. apply in_rev in Hg. apply in_map_iff in Hg as (g' & <- & Hg). specialize (S g' Hg). unfold shaped, ginv in *. destruct (eqb (gname g') (str "u1")); exact S.
Qed.
Lemma dihedral_run {det_odd draw clifford} :
  let grp := fun t => match t with TClifford => clifford | TDihedral => dihedral_group det_odd draw end in forall a out,
  decides_invertible det_odd ->
  (forall pat rs j, In pat (default_pattern (a_pat grp a)) -> exists e, draw (length pat) rs j = Ok e /\ wf_cdi (length pat) e /\ w0 (dpoly e) = 0%Z) ->
  rb_group_of (a_group grp a) = Ok TDihedral -> (forall pat, In pat (default_pattern (a_pat grp a)) -> 1 <= length pat <= 8) ->
  (forall l p pat ie, a_inter grp a = Some l -> nth_error (default_pattern (a_pat grp a)) p = Some pat -> nth_error l p = Some ie ->
     exists e, handle_one grp TDihedral ie = Ok e /\ wf_cdi (length pat) e /\ w0 (dpoly e) = 0%Z) ->
  ascending (default_lv (a_lv grp a)) -> 0 < a_nseeds grp a -> randomized_benchmarking_seq grp a = Ok out ->
  exists mult inter logs, run_of cgate grp a out TDihedral mult inter logs in_use.
Proof.
  intros grp a out Hdet Hdraw Ht Hp8 Hint Hasc Hseeds H.
  destruct (run_explained grp a out H) as (t & mult & inter & logs & H1 & H2 & H3 & _ & H4 & _). assert (Et : t = TDihedral) by congruence. subst t. exists mult, inter, logs.
  constructor; try assumption.
  - constructor.
    + intros pat Hin. apply lawful_embed, (dihedral_lawful det_odd Hdet draw), Hp8, Hin.
    + intros pat Hin rs j. apply (Hdraw pat rs j Hin).
    + intros ies p pat ie Hi Hpat Hie. unfold handle_interleaved_elem in Hi. destruct (a_inter grp a) as [l|] eqn:El; [|discriminate]. inv_bind Hi. injection Hi as ->.
      assert (Hlp : exists x, nth_error l p = Some x /\ handle_one grp TDihedral x = Ok ie).
      { clear - E Hie. apply mapM_inv in E. revert p Hie. induction E as [|x y l l' Hxy E IH]; intros [|p] Hie; try discriminate; [exists x; injection Hie as <-; auto | apply IH, Hie]. }
      destruct Hlp as (x & Hx & Ex). destruct (Hint l p pat x eq_refl Hpat Hx) as (e & Ee & W & Z). rewrite Ex in Ee. injection Ee as ->. split; assumption.
    + intros _. apply same_embed. exact h_twice.
  - intros pat e g Hin He Hg. exact (dihedral_unitary det_odd draw (length pat) e Hdet He g Hg).
Qed.
