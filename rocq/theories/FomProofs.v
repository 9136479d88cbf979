From Coq Require Import List Arith Bool Lia Reals Lra Psatz.
From Verif Require Import Vec RVec RMat Loop LoopLemmas SolverSpec SolverLemmas XReal OptSpec OptModel OptProofs SpgSpec FomSpec FomModel.
Import ListNotations.
Set Implicit Arguments.
Local Open Scope R_scope.

Lemma finite_map z : finite (map Fin z) = Some z.
Proof. induction z as [|a z IH]; [reflexivity|]. cbn. now rewrite IH. Qed.
(** the three-point inequality of proximal steps *)
Lemma prox3 n dom hv t v p u : convex_set n dom -> convex_on n dom hv -> 0 < t -> length v = n ->
  unique_minimiser n dom (prox_obj hv t v) p -> length u = n -> dom u ->
  t * hv p + / 2 * nrm2 (rsub p v) + / 2 * nrm2 (rsub u p) <= t * hv u + / 2 * nrm2 (rsub u v).
Proof.
  intros HC Hh Ht Lv [Lp [Dp Mn]] Lu Du. set (N := nrm2 (rsub u p)). set (c := rdot (rsub u p) (rsub p v)).
  set (B := t * (hv u - hv p) + c). assert (N0 : 0 <= N) by apply rdot_pos.
  assert (Lup : length (rsub u p) = n) by vl. assert (Lpv : length (rsub p v) = n) by vl.
  assert (Ex : forall s, nrm2 (radd (rsub p v) (rscale s (rsub u p))) = nrm2 (rsub p v) + 2 * s * c + s * s * N).
  { intros s. unfold N, c, nrm2. rewrite rdot_add_l, !rdot_add_r, !rdot_scale_l, !rdot_scale_r, (rdot_sym (rsub p v) (rsub u p)) by vl. ring. }
  assert (HB : forall s, 0 <= s <= 1 -> 0 <= s * B + s * s * N / 2).
  { intros s Hs. set (w := radd p (rscale s (rsub u p))). assert (Lw : length w = n) by (unfold w; vl).
    destruct (Mn w Lw (@HC p u s Lp Lu Dp Du Hs)) as [M _]. unfold prox_obj in M.
    pose proof (@Hh p u s Lp Lu Dp Du Hs) as Cv. fold w in Cv.
    assert (E : rsub w v = radd (rsub p v) (rscale s (rsub u p))) by (unfold w; veq). rewrite E, Ex in M.
    assert (t * hv w <= t * ((1 - s) * hv p + s * hv u)) by (apply Rmult_le_compat_l; lra). unfold B. nra. }
  assert (B0 : 0 <= B).
  { destruct (Rle_lt_dec 0 B) as [|Nb]; auto. exfalso. destruct (Rle_lt_dec N (- B)) as [Q|Q].
    - specialize (HB 1 ltac:(lra)). lra.
    - assert (Pn : 0 < N) by lra. assert (S : 0 <= - B / N <= 1).
      { split; [apply Rmult_le_pos; [lra|left; now apply Rinv_0_lt_compat]|]. apply Rmult_le_reg_r with N; auto. unfold Rdiv. rewrite Rmult_assoc, Rinv_l by lra. lra. }
      specialize (HB _ S). replace (- B / N * B + - B / N * (- B / N) * N / 2) with (- (B * B / N) / 2) in HB by (field; lra).
      assert (0 < B * B / N) by (apply Rmult_lt_0_compat; [nra|now apply Rinv_0_lt_compat]). lra. }
  assert (E2 : rsub u v = radd (rsub p v) (rscale 1 (rsub u p))) by veq. rewrite E2, Ex. fold N. unfold B in B0. lra.
Qed.

(** *** theta *)
Lemma theta_rel t L Lo : 0 < t -> 0 < L -> 0 < Lo ->
  let t' := advance_theta (Some t) L Lo in 0 < t' < 1 /\ (1 - t') * (Lo * t ^ 2) = t' ^ 2 * L.
Proof.
  intros Ht HL HLo. cbn [advance_theta]. set (c := L / Lo / t ^ 2). assert (P2 : 0 < t ^ 2) by (apply pow_lt; auto).
  assert (Pc : 0 < c) by (unfold c; apply Rmult_lt_0_compat; [apply Rmult_lt_0_compat; auto|]; now apply Rinv_0_lt_compat).
  replace (4 * (L / Lo) / t ^ 2) with (4 * c) by (unfold c; field; split; lra).
  set (s := sqrt (1 + 4 * c)). assert (Hs : s * s = 1 + 4 * c) by (apply sqrt_sqrt; lra).
  assert (S1 : 1 < s). { rewrite <- sqrt_1. apply sqrt_lt_1; lra. }
  split. { split; [apply Rmult_lt_0_compat; [lra|apply Rinv_0_lt_compat; lra]|]. apply Rmult_lt_reg_r with (1 + s); [lra|]. unfold Rdiv. rewrite Rmult_assoc, Rinv_l by lra. lra. }
  assert (EL : L = c * (Lo * t ^ 2)) by (unfold c; field; split; lra).
  replace (t ^ 2) with (t ^ 2) by reflexivity. rewrite EL at 1. 
  assert (Q : 1 - 2 / (1 + s) = (2 / (1 + s)) ^ 2 * c).
  { apply Rmult_eq_reg_r with ((1 + s) ^ 2); [|apply pow_nonzero; lra]. field_simplify; [|lra|lra]. nra. }
  rewrite Q. ring.
Qed.
Lemma theta_first L Lo : advance_theta None L Lo = 1.
Proof. cbn. rewrite Rplus_0_r, sqrt_1. field. Qed.
Lemma theta_growth t L : 0 < t -> 0 < L -> / t + / 2 <= / advance_theta (Some t) L L.
Proof.
  intros Ht HL. cbn [advance_theta]. replace (L / L) with 1 by (field; lra). assert (P2 : 0 < t ^ 2) by (apply pow_lt; auto).
  assert (It : 0 < / t) by now apply Rinv_0_lt_compat.
  assert (S : 2 * / t <= sqrt (1 + 4 * 1 / t ^ 2)).
  { rewrite <- (sqrt_square (2 * / t)) by lra. apply sqrt_le_1; [nra| |]; replace (4 * 1 / t ^ 2) with (4 * (/ t * / t)) by (field; lra); nra. }
  set (s := sqrt _) in *. replace (/ (2 / (1 + s))) with ((1 + s) / 2) by (field; lra). lra.
Qed.

Lemma some_ne A (o : option A) a : o = Some a -> o <> None.
Proof. congruence. Qed.
Lemma capable_sound n dom hv p : capable n dom hv p -> sound n dom hv p.
Proof. intros [H1 H2]. split; auto. Qed.

Section FOM.
  Variables (n m : nat) (f : smooth) (h : proxcap) (times trans : vec -> vec) (b : vec) (opt : fom_options).
  Variables (dom : vec -> Prop) (hv : vec -> R).
  Hypothesis Hadj : adjoint_ops n m times trans.
  Hypothesis Lb : length b = m.
  Hypothesis Hgv : forall u, sgrad_val f u = (sgrad f u, sfunc f u).
  Hypothesis Hgl : forall u, length u = m -> length (sgrad f u) = m.
  Hypothesis Hdom : convex_set n dom.
  Hypothesis Hcap : sound n dom hv h.
  Hypothesis Halpha : 0 < fo_alpha opt <= 1.
  Hypothesis Hbeta : 0 < fo_beta opt.
  Hypothesis HL0 : 0 < fo_L0 opt.
  Hypothesis HLe : forall e, fo_Lexact opt = Some e -> fo_L0 opt <= e.
  Notation init := (fom_init f h times b opt).
  Notation body := (fom_body f h times trans b opt).
  Notation first := (fom_first f h times trans b opt).
  Notation F u := (sfunc f (radd (times u) b)).
  Notation G u := (sgrad f (radd (times u) b)).
  Notation phi := (composite (sfunc f) times b hv).

  Lemma Ltimes u : length u = n -> length (times u) = m.
  Proof. apply Hadj. Qed.
  Lemma Ltrans u : length u = m -> length (trans u) = n.
  Proof. apply Hadj. Qed.
  Lemma LG u : length u = n -> length (G u) = m.
  Proof. intros. apply Hgl. pose proof (Ltimes _ H). vl. Qed.

  (** feasible x, z and consistent cached quantities *)
  Definition fom_inv (s : fom_state) : Prop :=
    0 < fm_L s /\ (forall e, fo_Lexact opt = Some e -> fm_L s <= e) /\
    (forall t, fm_theta s = Some t -> 0 < t <= 1) /\
    length (fm_x s) = n /\ dom (fm_x s) /\ length (fm_z s) = n /\ dom (fm_z s) /\
    length (fm_y s) = n /\ dom (fm_y s) /\
    fm_Ax s = times (fm_x s) /\ fm_Ay s = times (fm_y s) /\ fm_Az s = times (fm_z s) /\
    fm_gAx s = G (fm_x s) /\ fm_fx s = F (fm_x s) /\ fm_gAy s = G (fm_y s) /\ fm_fy s = F (fm_y s) /\
    fm_Cz s = Fin (hv (fm_z s)) /\ fm_norm_x s = nrm (fm_x s).

  Lemma init_ok (x0 : vec) : length x0 = n -> init x0 <> None -> exists s, init x0 = Some s /\ fom_inv s /\ fm_theta s = None /\ fm_L s = fo_L0 opt /\
    fm_z s = fm_x s /\ (dom x0 -> fm_x s = x0) /\ fm_iterations s = 0%nat.
  Proof.
    intros Lx Hne. destruct Hcap as [Hv Hp]. destruct (Hv x0 Lx) as [Hi Ho].
    assert (St : exists x : vec, (match pfunc h x0 with PInf | NInf => let '(p, v) := prox_vec_val h x0 1 in option_map (fun x => (x, v)) (finite p) | _ => Some (x0, pfunc h x0) end) = Some (x, Fin (hv x)) /\ length x = n /\ dom x /\ (dom x0 -> x = x0)).
    { destruct (Classical_Prop.classic (dom x0)) as [D|D].
      - rewrite (Hi D). exists x0. auto.
      - rewrite (Ho D). destruct (Hp x0 1 Lx ltac:(lra)) as [Hn|[z [E [Lz [Dz _]]]]].
        { exfalso. apply Hne. unfold fom_init. cbv zeta. rewrite (Ho D). destruct (prox_vec_val h x0 1) as [p v]. cbn in Hn. now rewrite Hn. }
        rewrite E, finite_map. exists z. cbn. split; [reflexivity|]. split; [auto|]. split; [auto|]. intros; contradiction. }
    destruct St as [x [E [L [D Ex]]]]. unfold fom_init. cbv zeta. 
    rewrite E.
    unfold fom_f. cbn [sgrad_val smooth_func_translate]. rewrite Hgv.
    eexists. split; [reflexivity|]. cbn. unfold fom_inv. cbn. split; [|auto].
    split; [auto|]. split; [auto|]. split; [discriminate|]. repeat (split; [auto|]). reflexivity.
  Qed.
  Lemma comb_ok x z t : length x = n -> length z = n -> dom x -> dom z -> 0 < t <= 1 ->
    length (radd (rscale (1 - t) x) (rscale t z)) = n /\ dom (radd (rscale (1 - t) x) (rscale t z)).
  Proof.
    intros Lx Lz Dx Dz Ht. split; [vl|]. replace (radd (rscale (1 - t) x) (rscale t z)) with (radd x (rscale t (rsub z x))) by veq.
    apply Hdom; auto. lra.
  Qed.
  Lemma theta_range s L : fom_inv s -> 0 < L -> 0 < advance_theta (fm_theta s) L (fm_L s) <= 1.
  Proof.
    intros [PL [_ [Ht _]]] HL. destruct (fm_theta s) as [t|]; [|rewrite theta_first; lra].
    specialize (Ht t eq_refl). destruct (@theta_rel t L (fm_L s)) as [Q _]; lra.
  Qed.
  Lemma bt_ge x a g y a' g' L : 0 < L -> (forall e, fo_Lexact opt = Some e -> L <= e) ->
    let L' := backtrack_L x a g y a' g' L (fo_Lexact opt) (fo_beta opt) in L <= L' /\ forall e, fo_Lexact opt = Some e -> L' <= e.
  Proof.
    intros PL He. unfold backtrack_L. cbv zeta. destruct (Reqb _ 0); [split; [lra|auto]|]. destruct (Rleb_spec (2 * rdot (rsub a a') (rsub g g') / nrm2 (rsub x y)) L) as [Q|Q]; [split; [lra|auto]|].
    unfold min_bound. pose proof (Rmax_l (2 * rdot (rsub a a') (rsub g g') / nrm2 (rsub x y)) (L / fo_beta opt)) as M.
    destruct (fo_Lexact opt) as [e|]; [|split; [lra|discriminate]]. specialize (He e eq_refl). split.
    - apply Rmin_glb; lra.
    - intros e' E. injection E as <-. apply Rmin_l.
  Qed.
  (** one run of the body *)
  Lemma body_ok s : fom_inv s -> body s <> None -> exists s', body s = Some s' /\ fom_inv s' /\
    let L := fm_L s * fo_alpha opt in let t := advance_theta (fm_theta s) L (fm_L s) in
    fm_theta s' = Some t /\ L <= fm_L s' /\
    fm_y s' = radd (rscale (1 - t) (fm_x s)) (rscale t (fm_z s)) /\ fm_x s' = radd (rscale (1 - t) (fm_x s)) (rscale t (fm_z s')) /\
    fm_gy s' = trans (G (fm_y s')) /\ fm_iterations s' = S (fm_iterations s) /\ fm_norm_dx s' = nrm (rsub (fm_x s') (fm_x s)) /\
    unique_minimiser n dom (prox_obj hv (1 / (t * L)) (rsub (fm_z s) (rscale (1 / (t * L)) (fm_gy s')))) (fm_z s') /\
    fm_L s' = backtrack_L (fm_x s') (fm_Ax s') (fm_gAx s') (fm_y s') (fm_Ay s') (fm_gAy s') L (fo_Lexact opt) (fo_beta opt) /\
    fm_Cx s' = fm_Cx s.
  Proof.
    intros I Hne. pose proof I as (PL & He & Ht & Lx & Dx & Lz & Dz & _).
    set (L := fm_L s * fo_alpha opt). assert (PL' : 0 < L) by (unfold L; apply Rmult_lt_0_compat; lra).
    assert (He' : forall e, fo_Lexact opt = Some e -> L <= e). { intros e E. specialize (He e E). unfold L. nra. }
    pose proof (@theta_range s L I PL') as Tr. set (t := advance_theta (fm_theta s) L (fm_L s)) in *.
    set (y := radd (rscale (1 - t) (fm_x s)) (rscale t (fm_z s))). destruct (@comb_ok (fm_x s) (fm_z s) t Lx Lz Dx Dz Tr) as [Ly Dy]. fold y in Ly, Dy.
    assert (Lgy : length (trans (G y)) = n) by (apply Ltrans, LG, Ly).
    assert (PtL : 0 < t * L) by (apply Rmult_lt_0_compat; lra).
    assert (Pst : 0 < 1 / (t * L)) by (unfold Rdiv; rewrite Rmult_1_l; now apply Rinv_0_lt_compat).
    destruct Hcap as [_ Hp]. destruct (Hp (rsub (fm_z s) (rscale (1 / (t * L)) (trans (G y)))) _ ltac:(vl) Pst) as [Hn|[z [E Um]]].
    { exfalso. apply Hne. unfold fom_body. cbv zeta. fold L. fold t. fold y. unfold fom_f. cbn [sgrad_val smooth_func_translate]. rewrite Hgv.
      destruct (Reqb_spec (t * L) 0) as [Z|_]; [lra|]. destruct (prox_vec_val h _ _) as [p v]. cbn in Hn. now rewrite Hn. }
    pose proof Um as [Lz' [Dz' _]].
    destruct (@comb_ok (fm_x s) z t Lx Lz' Dx Dz' Tr) as [Lx' Dx'].
    unfold fom_body. cbv zeta. fold L. fold t. fold y. unfold fom_f. cbn [sgrad_val smooth_func_translate]. rewrite Hgv.
    destruct (Reqb_spec (t * L) 0) as [Z|_]; [lra|]. rewrite E, finite_map, Hgv. set (x := radd (rscale (1 - t) (fm_x s)) (rscale t z)) in *.
    set (L' := backtrack_L _ _ _ _ _ _ _ _ _).
    destruct (@bt_ge x (times x) (G x) y (times y) (G y) L PL' He') as [Q1 Q2]. fold L' in Q1, Q2.
    eexists. split; [reflexivity|]. cbn. unfold fom_inv. cbn. split.
    - split; [lra|]. split; [auto|]. split; [intros t' Et; injection Et as <-; auto|]. repeat (split; [auto; fail|]). reflexivity.
    - split; [reflexivity|]. split; [auto|]. repeat (split; [reflexivity|]). split; [exact Um|]. split; reflexivity.
  Qed.
  Lemma first_init x0 s1 : first x0 = Some s1 -> init x0 <> None.
  Proof. unfold fom_first. now destruct (init x0). Qed.
  Lemma reach_ok s1 k s : fom_inv s1 -> reaches (fom_cond opt) body s1 k s -> fom_inv s /\ fm_iterations s = (fm_iterations s1 + k)%nat.
  Proof.
    intros I1 H. induction H as [|k s s' H [IH1 IH2] Cd Bd]; [split; [auto|lia]|]. destruct (body_ok IH1 (some_ne Bd)) as [s2 [E [I2 Q]]]. rewrite Bd in E. injection E as <-.
    split; auto. cbv zeta in Q. destruct Q as (_ & _ & _ & _ & _ & Q & _). rewrite Q, IH2. lia.
  Qed.
  (** with a total proximal operator nothing gets stuck *)
  Section Total.
  Hypothesis Htot : capable n dom hv h.
  Lemma init_total (x0 : vec) : length x0 = n -> init x0 <> None.
  Proof.
    intros Lx. destruct Htot as [Hv Hp]. destruct (Hv x0 Lx) as [Hi Ho]. unfold fom_init. cbv zeta.
    unfold fom_f. cbn [sgrad_val smooth_func_translate].
    destruct (Classical_Prop.classic (dom x0)) as [D|D].
    - rewrite (Hi D), Hgv. discriminate.
    - rewrite (Ho D). destruct (Hp x0 1 Lx ltac:(lra)) as [z [E _]]. rewrite E, finite_map. cbn [option_map]. rewrite Hgv. discriminate.
  Qed.
  Lemma body_total s : fom_inv s -> body s <> None.
  Proof.
    intros I. pose proof I as (PL & He & Ht & Lx & Dx & Lz & Dz & _).
    set (L := fm_L s * fo_alpha opt). assert (PL' : 0 < L) by (unfold L; apply Rmult_lt_0_compat; lra).
    pose proof (@theta_range s L I PL') as Tr. set (t := advance_theta (fm_theta s) L (fm_L s)) in *.
    set (y := radd (rscale (1 - t) (fm_x s)) (rscale t (fm_z s))). destruct (@comb_ok (fm_x s) (fm_z s) t Lx Lz Dx Dz Tr) as [Ly Dy]. fold y in Ly, Dy.
    assert (Lgy : length (trans (G y)) = n) by (apply Ltrans, LG, Ly).
    assert (PtL : 0 < t * L) by (apply Rmult_lt_0_compat; lra).
    assert (Pst : 0 < 1 / (t * L)) by (unfold Rdiv; rewrite Rmult_1_l; now apply Rinv_0_lt_compat).
    destruct Htot as [_ Hp]. destruct (Hp (rsub (fm_z s) (rscale (1 / (t * L)) (trans (G y)))) _ ltac:(vl) Pst) as [z [E _]].
    unfold fom_body. cbv zeta. fold L. fold t. fold y. unfold fom_f. cbn [sgrad_val smooth_func_translate]. rewrite Hgv.
    destruct (Reqb_spec (t * L) 0) as [Z|_]; [lra|]. rewrite E, finite_map, Hgv. discriminate.
  Qed.
  End Total.
  (** *** convergence *)
  Hypothesis Hhc : convex_on n dom hv.
  Hypothesis Hfc : first_order_convex m (sfunc f) (sgrad f).
  Lemma sub_times x y : length x = n -> length y = n -> times (rsub x y) = rsub (times x) (times y).
  Proof.
    intros Lx Ly. destruct Hadj as [[_ [Ha Hs]] _]. replace (rsub x y) with (radd x (rscale (-1) y)) by veq. rewrite Ha, Hs by vl.
    pose proof (Ltimes _ Lx). pose proof (Ltimes _ Ly). veq.
  Qed.
  Lemma gdot y u : length y = n -> length u = n -> rdot (G y) (rsub (times u) (times y)) = rdot (trans (G y)) (rsub u y).
  Proof.
    intros Ly Lu. rewrite <- sub_times by auto. destruct Hadj as [_ [_ Ha]]. rewrite rdot_sym, Ha by (try vl; apply LG; auto). apply rdot_sym.
  Qed.
  Lemma Fconv y u : length y = n -> length u = n -> F y + rdot (trans (G y)) (rsub u y) <= F u.
  Proof.
    intros Ly Lu. pose proof (Ltimes _ Ly). pose proof (Ltimes _ Lu). rewrite <- gdot by auto.
    pose proof (@Hfc (radd (times y) b) (radd (times u) b) ltac:(vl) ltac:(vl)) as Q.
    replace (rsub (radd (times u) b) (radd (times y) b)) with (rsub (times u) (times y)) in Q by veq. exact Q.
  Qed.
  Definition good_step (s s' : fom_state) : Prop :=
    fm_fx s' <= fm_fy s' + rdot (fm_gy s') (rsub (fm_x s') (fm_y s')) + fo_alpha opt * fm_L s / 2 * nrm2 (rsub (fm_x s') (fm_y s')).
  Lemma energy_step s s' u : fom_inv s -> body s = Some s' -> good_step s s' -> length u = n -> dom u ->
    let L := fo_alpha opt * fm_L s in let t := advance_theta (fm_theta s) L (fm_L s) in
    phi (fm_x s') - phi u + t ^ 2 * L / 2 * nrm2 (rsub (fm_z s') u) <= (1 - t) * (phi (fm_x s) - phi u) + t ^ 2 * L / 2 * nrm2 (rsub (fm_z s) u).
  Proof.
    intros I E Gs Lu Du. destruct (body_ok I (some_ne E)) as [s2 [E2 [I' Q]]]. rewrite E in E2. injection E2 as <-. cbv zeta in Q.
    unfold good_step in Gs. cbv zeta. rewrite (Rmult_comm (fm_L s)) in Q. set (L := fo_alpha opt * fm_L s) in *. set (t := advance_theta (fm_theta s) L (fm_L s)) in *.
    destruct Q as (_ & _ & Ey & Ex & Egy & _ & _ & Um & _).
    pose proof I as (PL & _ & _ & Lx & Dx & Lz & Dz & _). pose proof I' as (_ & _ & _ & Lx' & Dx' & Lz' & Dz' & Ly' & Dy' & _ & _ & _ & _ & Fx & _ & Fy & _).
    assert (PL' : 0 < L) by (unfold L; apply Rmult_lt_0_compat; lra). pose proof (@theta_range s L I PL') as Tr. fold t in Tr.
    set (g := fm_gy s') in *. assert (Lg : length g = n) by (unfold vec in *; rewrite Egy; apply Ltrans, LG; auto).
    rewrite Fx, Fy in Gs. unfold composite.
    pose proof (@Fconv (fm_y s') (fm_x s) Ly' Lx) as C1. pose proof (@Fconv (fm_y s') u Ly' Lu) as C2. rewrite <- Egy in C1, C2.
    pose proof (@Hhc (fm_x s) (fm_z s') t Lx Lz' Dx Dz' ltac:(lra)) as Ch.
    replace (radd (fm_x s) (rscale t (rsub (fm_z s') (fm_x s)))) with (fm_x s') in Ch by (rewrite Ex; veq).
    (* prox inequality *)
    assert (PtL : 0 < t * L) by (apply Rmult_lt_0_compat; lra).
    assert (Pst : 0 < 1 / (t * L)) by (unfold Rdiv; rewrite Rmult_1_l; now apply Rinv_0_lt_compat).
    pose proof (@prox3 n dom hv (1 / (t * L)) (rsub (fm_z s) (rscale (1 / (t * L)) g)) (fm_z s') u Hdom Hhc Pst ltac:(vl) Um Lu Du) as P3.
    assert (Exp : forall w, length w = n -> nrm2 (rsub w (rsub (fm_z s) (rscale (1 / (t * L)) g))) =
        nrm2 (rsub w (fm_z s)) + 2 * (1 / (t * L)) * rdot g (rsub w (fm_z s)) + (1 / (t * L)) * (1 / (t * L)) * nrm2 g).
    { intros w Lw. replace (rsub w (rsub (fm_z s) (rscale (1 / (t * L)) g))) with (radd (rsub w (fm_z s)) (rscale (1 / (t * L)) g)) by veq.
      unfold nrm2. rewrite rdot_add_l, !rdot_add_r, !rdot_scale_l, !rdot_scale_r, (rdot_sym (rsub w (fm_z s)) g) by vl. ring. }
    rewrite !Exp in P3 by auto.
    assert (P4 : hv (fm_z s') + rdot g (rsub (fm_z s') (fm_z s)) + t * L / 2 * nrm2 (rsub (fm_z s') (fm_z s)) + t * L / 2 * nrm2 (rsub u (fm_z s')) <=
                 hv u + rdot g (rsub u (fm_z s)) + t * L / 2 * nrm2 (rsub u (fm_z s))).
    { apply Rmult_le_reg_l with (1 / (t * L)); auto.
      match goal with |- ?a <= ?c => replace a with (1 / (t * L) * hv (fm_z s') + 1 / (t * L) * rdot g (rsub (fm_z s') (fm_z s)) + / 2 * nrm2 (rsub (fm_z s') (fm_z s)) + / 2 * nrm2 (rsub u (fm_z s'))) by (field; lra);
        replace c with (1 / (t * L) * hv u + 1 / (t * L) * rdot g (rsub u (fm_z s)) + / 2 * nrm2 (rsub u (fm_z s))) by (field; lra) end.
      lra. }
    (* geometry *)
    assert (Dxy : rsub (fm_x s') (fm_y s') = rscale t (rsub (fm_z s') (fm_z s))) by (rewrite Ex, Ey; veq).
    assert (N1 : nrm2 (rsub (fm_x s') (fm_y s')) = t * t * nrm2 (rsub (fm_z s') (fm_z s))) by (rewrite Dxy; unfold nrm2; rewrite rdot_scale_l, rdot_scale_r; ring).
    assert (G1 : rdot g (rsub (fm_x s') (fm_y s')) = (1 - t) * rdot g (rsub (fm_x s) (fm_y s')) + t * rdot g (rsub (fm_z s') (fm_y s'))).
    { rewrite <- !rdot_scale_r, <- rdot_add_r by vl. f_equal. rewrite Ex. veq. }
    assert (G2 : rdot g (rsub (fm_z s') (fm_y s')) = rdot g (rsub (fm_z s') (fm_z s)) - rdot g (rsub u (fm_z s)) + rdot g (rsub u (fm_y s'))).
    { rewrite !rdot_sub_r by vl. ring. }
    rewrite N1, G1, G2 in Gs. rewrite (nrm2_sub_sym (fm_z s') u), (nrm2_sub_sym (fm_z s) u) by vl.
    assert (P5 : t * (hv (fm_z s') + rdot g (rsub (fm_z s') (fm_z s)) + t * L / 2 * nrm2 (rsub (fm_z s') (fm_z s)) + t * L / 2 * nrm2 (rsub u (fm_z s'))) <=
                 t * (hv u + rdot g (rsub u (fm_z s)) + t * L / 2 * nrm2 (rsub u (fm_z s)))) by (apply Rmult_le_compat_l; lra).
    assert (C1' : (1 - t) * (F (fm_y s') + rdot g (rsub (fm_x s) (fm_y s'))) <= (1 - t) * F (fm_x s)) by (apply Rmult_le_compat_l; lra).
    assert (C2' : t * (F (fm_y s') + rdot g (rsub u (fm_y s'))) <= t * F u) by (apply Rmult_le_compat_l; lra).
    set (n1 := nrm2 (rsub (fm_z s') (fm_z s))) in *. set (n2 := nrm2 (rsub u (fm_z s'))) in *. set (n3 := nrm2 (rsub u (fm_z s))) in *.
    replace (t ^ 2) with (t * t) by ring. replace (L / 2 * (t * t * n1)) with (t * (t * L / 2 * n1)) in Gs by field.
    replace (t * t * L / 2 * n2) with (t * (t * L / 2 * n2)) by field. replace (t * t * L / 2 * n3) with (t * (t * L / 2 * n3)) by field. lra.
  Qed.
  (** a posteriori certificate *)
  Lemma certificate x0 s1 k s u : length x0 = n -> first x0 = Some s1 -> reaches (fom_cond opt) body s1 k s ->
    (forall s0, init x0 = Some s0 -> good_step s0 s1) ->
    (forall j a c, (j < k)%nat -> reaches (fom_cond opt) body s1 j a -> body a = Some c -> good_step a c) ->
    length u = n -> dom u -> (forall v, length v = n -> dom v -> phi u <= phi v) ->
    exists t z0 L, fm_theta s = Some t /\ (forall s0, init x0 = Some s0 -> z0 = fm_x s0) /\ 0 < L <= fm_L s /\
      phi (fm_x s) - phi u + t ^ 2 * L / 2 * nrm2 (rsub (fm_z s) u) <= t ^ 2 * L / 2 * nrm2 (rsub z0 u).
  Proof.
    intros Lx0 Ef H G0 Gk Lu Du Mu. destruct (@init_ok x0 Lx0 (first_init _ Ef)) as (s0 & E0 & I0 & T0 & L0' & Z0 & _).
    assert (E1 : body s0 = Some s1) by (unfold fom_first in Ef; now rewrite E0 in Ef).
    assert (I1 : fom_inv s1). { destruct (body_ok I0 (some_ne E1)) as [q [Eq [Iq _]]]. rewrite E1 in Eq. now injection Eq as <-. }
    induction H as [|k s s' H IH Cd Bd].
    - pose proof (energy_step I0 E1 (G0 _ E0) Lu Du) as En. cbv zeta in En. rewrite T0, theta_first in En.
      destruct (body_ok I0 (some_ne E1)) as [q [Eq [_ Q]]]. rewrite E1 in Eq. injection Eq as <-. cbv zeta in Q. destruct Q as (Qt & QL & _). rewrite T0, theta_first in Qt.
      exists 1, (fm_x s0), (fo_alpha opt * fm_L s0). split; [auto|]. split; [intros q Hq; congruence|]. split.
      { split; [apply Rmult_lt_0_compat; [lra|exact (proj1 I0)]|]. lra. }
      rewrite Z0 in En. lra.
    - destruct IH as (t & z0 & L & Et & Ez & HL & IH). { intros j a c Hj. apply Gk. lia. }
      assert (I : fom_inv s) by (eapply reach_ok; eauto).
      pose proof (energy_step I Bd (@Gk k s s' ltac:(lia) H Bd) Lu Du) as En. cbv zeta in En. rewrite Et in En.
      set (L' := fo_alpha opt * fm_L s) in *. set (t' := advance_theta (Some t) L' (fm_L s)) in *.
      assert (PL : 0 < fm_L s) by exact (proj1 I). assert (PL' : 0 < L') by (unfold L'; apply Rmult_lt_0_compat; lra).
      assert (Pt : 0 < t <= 1) by (apply I; auto).
      destruct (@theta_rel t L' (fm_L s) ltac:(lra) PL' PL) as [Pt' Rel]. fold t' in Pt', Rel.
      destruct (body_ok I (some_ne Bd)) as [q [Eq [_ Q]]]. rewrite Bd in Eq. injection Eq as <-. cbv zeta in Q. destruct Q as (Qt & QL & _).
      rewrite (Rmult_comm (fm_L s)) in Qt, QL. fold L' in Qt, QL. rewrite Et in Qt. fold t' in Qt.
      exists t', z0, L'. split; [auto|]. split; [auto|]. split; [lra|].
      assert (D : 0 <= phi (fm_x s) - phi u). { assert (phi u <= phi (fm_x s)) by (apply Mu; apply I). lra. }
      (* (1-t') D <= t'^2 L' / (Ls t^2) D and D <= t^2 L/2 (...) *)
      assert (T2 : 0 < t ^ 2) by (apply pow_lt; lra).
      set (c := t' ^ 2 * L' / (fm_L s * t ^ 2)). assert (Ec : 1 - t' = c) by (unfold c; apply Rmult_eq_reg_r with (fm_L s * t ^ 2); [rewrite Rel; field; lra|apply Rgt_not_eq, Rmult_lt_0_compat; lra]).
      assert (Pc : 0 < c) by lra.
      assert (Q1 : (1 - t') * (phi (fm_x s) - phi u) <= c * (fm_L s / L) * (t ^ 2 * L / 2 * nrm2 (rsub z0 u) - t ^ 2 * L / 2 * nrm2 (rsub (fm_z s) u))).
      { rewrite Ec. assert (R1 : 1 <= fm_L s / L). { apply Rmult_le_reg_r with L; [lra|]. unfold Rdiv. rewrite Rmult_assoc, Rinv_l by lra. lra. }
        assert (phi (fm_x s) - phi u <= t ^ 2 * L / 2 * nrm2 (rsub z0 u) - t ^ 2 * L / 2 * nrm2 (rsub (fm_z s) u)) by lra.
        rewrite Rmult_assoc. apply Rmult_le_compat_l; [lra|]. set (X := t ^ 2 * L / 2 * nrm2 (rsub z0 u) - t ^ 2 * L / 2 * nrm2 (rsub (fm_z s) u)) in *. nra. }
      replace (c * (fm_L s / L) * (t ^ 2 * L / 2 * nrm2 (rsub z0 u) - t ^ 2 * L / 2 * nrm2 (rsub (fm_z s) u)))
        with (t' ^ 2 * L' / 2 * nrm2 (rsub z0 u) - t' ^ 2 * L' / 2 * nrm2 (rsub (fm_z s) u)) in Q1 by (unfold c; field; repeat split; lra).
      lra.
  Qed.
  Lemma good_of_lipschitz Lf s s' : fom_inv s -> lipschitz_after n m (sfunc f) (sgrad f) times b Lf -> Lf <= fo_alpha opt * fm_L s ->
    body s = Some s' -> good_step s s'.
  Proof.
    intros I HLf Hle E. destruct (body_ok I (some_ne E)) as [q [Eq [I' Q]]]. rewrite E in Eq. injection Eq as <-. cbv zeta in Q.
    destruct Q as (_ & _ & _ & _ & Egy & _). pose proof I' as (_ & _ & _ & Lx' & _ & _ & _ & Ly' & _ & _ & _ & _ & _ & Fx & _ & Fy & _).
    unfold good_step. rewrite Fx, Fy, Egy, <- gdot by auto. pose proof (@HLf (fm_x s') (fm_y s') Lx' Ly') as Q.
    pose proof (rdot_pos (rsub (fm_x s') (fm_y s'))) as P. fold (nrm2 (rsub (fm_x s') (fm_y s'))) in P. nra.
  Qed.
  (** *** the constant step: alpha = 1 and Lexact = L0 *)
  Hypothesis Hal1 : fo_alpha opt = 1.
  Hypothesis HLe1 : fo_Lexact opt = Some (fo_L0 opt).
  Lemma bt_const x a g y a' g' : backtrack_L x a g y a' g' (fo_L0 opt) (fo_Lexact opt) (fo_beta opt) = fo_L0 opt.
  Proof.
    unfold backtrack_L. cbv zeta. destruct (Reqb _ 0); [reflexivity|].
    destruct (Rleb_spec (2 * rdot (rsub a a') (rsub g g') / nrm2 (rsub x y)) (fo_L0 opt)) as [Q|Q]; [reflexivity|].
    rewrite HLe1. cbn. apply Rmin_left. pose proof (Rmax_l (2 * rdot (rsub a a') (rsub g g') / nrm2 (rsub x y)) (fo_L0 opt / fo_beta opt)). lra.
  Qed.
  Lemma body_const s s' : fom_inv s -> fm_L s = fo_L0 opt -> body s = Some s' -> fm_L s' = fo_L0 opt /\ fm_theta s' = Some (advance_theta (fm_theta s) (fo_L0 opt) (fo_L0 opt)).
  Proof.
    intros I EL E. destruct (body_ok I (some_ne E)) as [q [Eq [_ Q]]]. rewrite E in Eq. injection Eq as <-. cbv zeta in Q. rewrite EL, Hal1, Rmult_1_r in Q.
    destruct Q as (Qt & _ & _ & _ & _ & _ & _ & _ & Qb & _). rewrite bt_const in Qb. auto.
  Qed.
  Lemma const_run x0 s1 k s : length x0 = n -> first x0 = Some s1 -> reaches (fom_cond opt) body s1 k s ->
    fm_L s = fo_L0 opt /\ exists t, fm_theta s = Some t /\ 0 < t /\ 1 + INR k / 2 <= / t.
  Proof.
    intros Lx0 Ef H. destruct (@init_ok x0 Lx0 (first_init _ Ef)) as (s0 & E0 & I0 & T0 & L0' & _).
    assert (E1 : body s0 = Some s1) by (unfold fom_first in Ef; now rewrite E0 in Ef).
    assert (I1 : fom_inv s1). { destruct (body_ok I0 (some_ne E1)) as [q [Eq [Iq _]]]. rewrite E1 in Eq. now injection Eq as <-. }
    induction H as [|k s s' H IH Cd Bd].
    - destruct (body_const I0 L0' E1) as [A B]. rewrite T0, theta_first in B. split; auto. exists 1. cbn. split; [auto|]. lra.
    - destruct IH as [EL [t [Et [Pt Gt]]]]. assert (I : fom_inv s) by (eapply reach_ok; eauto).
      destruct (body_const I EL Bd) as [A B]. split; auto. rewrite Et in B. eexists. split; [exact B|].
      destruct (@theta_rel t (fo_L0 opt) (fo_L0 opt) Pt HL0 HL0) as [Q _]. split; [lra|].
      pose proof (@theta_growth t (fo_L0 opt) Pt HL0). rewrite S_INR. lra.
  Qed.
  Lemma rate x0 s1 k s u : length x0 = n -> lipschitz_after n m (sfunc f) (sgrad f) times b (fo_L0 opt) ->
    first x0 = Some s1 -> reaches (fom_cond opt) body s1 k s ->
    length u = n -> dom u -> (forall v, length v = n -> dom v -> phi u <= phi v) ->
    exists z0, (forall s0, init x0 = Some s0 -> z0 = fm_x s0) /\
      phi (fm_x s) - phi u <= 2 * fo_L0 opt * nrm2 (rsub z0 u) / INR (fm_iterations s + 1) ^ 2.
  Proof.
    intros Lx0 HLf Ef H Lu Du Mu. destruct (@init_ok x0 Lx0 (first_init _ Ef)) as (s0 & E0 & I0 & T0 & L0' & Z0 & _ & It0).
    assert (E1 : body s0 = Some s1) by (unfold fom_first in Ef; now rewrite E0 in Ef).
    destruct (body_ok I0 (some_ne E1)) as [q [Eq [I1 Q1]]]. rewrite E1 in Eq. injection Eq as <-. cbv zeta in Q1. destruct Q1 as (_ & _ & _ & _ & _ & It1 & _).
    destruct (@certificate x0 s1 k s u Lx0 Ef H) as (t & z0 & L & Et & Ez & HL & Cert); auto.
    - intros q Hq. rewrite E0 in Hq. injection Hq as <-. eapply good_of_lipschitz; eauto. rewrite Hal1, L0'. lra.
    - intros j a c Hj Ha Hb. eapply good_of_lipschitz; eauto; [eapply reach_ok; eauto|].
      destruct (@const_run _ _ _ _ Lx0 Ef Ha) as [EL _]. rewrite EL, Hal1. lra.
    - exists z0. split; auto. destruct (@const_run _ _ _ _ Lx0 Ef H) as [EL [t' [Et' [Pt Gt]]]]. rewrite Et in Et'. injection Et' as <-. rewrite EL in HL.
      destruct (reach_ok I1 H) as [_ It]. rewrite It, It1, It0. 
      assert (Ek : INR (1 + k + 1) = 2 * (1 + INR k / 2)) by (rewrite !plus_INR; simpl; field). rewrite Ek. set (q := 1 + INR k / 2) in *.
      assert (Pq : 1 <= q) by (unfold q; pose proof (pos_INR k); lra).
      pose proof (rdot_pos (rsub (fm_z s) u)) as P1. fold (nrm2 (rsub (fm_z s) u)) in P1. pose proof (rdot_pos (rsub z0 u)) as P2. fold (nrm2 (rsub z0 u)) in P2.
      assert (T2 : 0 < t ^ 2) by (apply pow_lt; auto).
      assert (Tq : t * q <= 1). { apply Rmult_le_reg_l with (/ t); [now apply Rinv_0_lt_compat|]. rewrite <- Rmult_assoc, Rinv_l by lra. lra. }
      assert (Tq2 : t ^ 2 * q ^ 2 <= 1). { replace (t ^ 2 * q ^ 2) with ((t * q) * (t * q)) by ring. assert (0 <= t * q) by nra. nra. }
      apply Rle_trans with (t ^ 2 * L / 2 * nrm2 (rsub z0 u)). { assert (0 <= t ^ 2 * L / 2 * nrm2 (rsub (fm_z s) u)); [|lra]. apply Rmult_le_pos; [|auto]. nra. }
      replace (2 * fo_L0 opt * nrm2 (rsub z0 u) / (2 * q) ^ 2) with (/ q ^ 2 * (fo_L0 opt / 2 * nrm2 (rsub z0 u))) by (field; lra).
      assert (Q2 : 0 < q ^ 2) by (apply pow_lt; lra).
      assert (T3 : t ^ 2 <= / q ^ 2). { apply Rmult_le_reg_r with (q ^ 2); auto. rewrite Rinv_l by lra. auto. }
      replace (t ^ 2 * L / 2 * nrm2 (rsub z0 u)) with (t ^ 2 * (L / 2 * nrm2 (rsub z0 u))) by field.
      apply Rmult_le_compat; [lra| |auto|].
      + apply Rmult_le_pos; lra.
      + apply Rmult_le_compat_r; lra.
  Qed.
End FOM.

(** *** with a total proximal operator the run cannot get stuck *)
Section Capable.
  Variables (n m : nat) (f : smooth) (h : proxcap) (times trans : vec -> vec) (b : vec) (opt : fom_options).
  Variables (dom : vec -> Prop) (hv : vec -> R).
  Notation init := (fom_init f h times b opt).
  Notation body := (fom_body f h times trans b opt).
  Notation first := (fom_first f h times trans b opt).
  Notation inv := (fom_inv n f times b opt dom hv).
  Notation G u := (sgrad f (radd (times u) b)).
  Lemma init_okc : (forall u, sgrad_val f u = (sgrad f u, sfunc f u)) -> capable n dom hv h ->
    0 < fo_L0 opt -> (forall e, fo_Lexact opt = Some e -> fo_L0 opt <= e) ->
    forall x0 : vec, length x0 = n -> exists s, init x0 = Some s /\ inv s /\ fm_theta s = None /\ fm_L s = fo_L0 opt /\
    fm_z s = fm_x s /\ (dom x0 -> fm_x s = x0) /\ fm_iterations s = 0%nat.
  Proof.
    intros Hgv Hc H1 H2 x0 Lx. apply init_ok with (h := h); auto using capable_sound. apply init_total with (n := n) (dom := dom) (hv := hv); auto.
  Qed.
  Lemma body_okc : adjoint_ops n m times trans -> length b = m -> (forall u, sgrad_val f u = (sgrad f u, sfunc f u)) ->
    (forall u : list R, length u = m -> length (sgrad f u) = m) -> convex_set n dom -> capable n dom hv h ->
    0 < fo_alpha opt <= 1 -> (forall e, fo_Lexact opt = Some e -> fo_L0 opt <= e) ->
    forall s, inv s -> exists s', body s = Some s' /\ inv s' /\
    let L := fm_L s * fo_alpha opt in let t := advance_theta (fm_theta s) L (fm_L s) in
    fm_theta s' = Some t /\ L <= fm_L s' /\
    fm_y s' = radd (rscale (1 - t) (fm_x s)) (rscale t (fm_z s)) /\ fm_x s' = radd (rscale (1 - t) (fm_x s)) (rscale t (fm_z s')) /\
    fm_gy s' = trans (G (fm_y s')) /\ fm_iterations s' = S (fm_iterations s) /\ fm_norm_dx s' = nrm (rsub (fm_x s') (fm_x s)) /\
    unique_minimiser n dom (prox_obj hv (1 / (t * L)) (rsub (fm_z s) (rscale (1 / (t * L)) (fm_gy s')))) (fm_z s') /\
    fm_L s' = backtrack_L (fm_x s') (fm_Ax s') (fm_gAx s') (fm_y s') (fm_Ay s') (fm_gAy s') L (fo_Lexact opt) (fo_beta opt) /\
    fm_Cx s' = fm_Cx s.
  Proof.
    intros Ha Lb Hv Hl Hd Hc O1 O4 s I. apply (body_ok Ha Lb Hv Hl Hd (capable_sound Hc) O1 O4 I).
    exact (body_total Ha Lb Hv Hl Hd O1 Hc I).
  Qed.
  Lemma first_okc : adjoint_ops n m times trans -> length b = m -> (forall u, sgrad_val f u = (sgrad f u, sfunc f u)) ->
    (forall u : list R, length u = m -> length (sgrad f u) = m) -> convex_set n dom -> capable n dom hv h ->
    0 < fo_alpha opt <= 1 -> 0 < fo_L0 opt -> (forall e, fo_Lexact opt = Some e -> fo_L0 opt <= e) ->
    forall x0, length x0 = n -> exists s0 s, init x0 = Some s0 /\ first x0 = Some s /\ body s0 = Some s /\ inv s0 /\ inv s.
  Proof.
    intros Ha Lb Hv Hl Hd Hc O1 O3 O4 x0 Lx. destruct (init_okc Hv Hc O3 O4 x0 Lx) as [s0 [E0 [I0 _]]].
    destruct (body_okc Ha Lb Hv Hl Hd Hc O1 O4 I0) as [s [E [I1 _]]]. exists s0, s. split; [auto|].
    split; [unfold fom_first; now rewrite E0|auto].
  Qed.
  Lemma reach_okc : adjoint_ops n m times trans -> length b = m -> (forall u, sgrad_val f u = (sgrad f u, sfunc f u)) ->
    (forall u : list R, length u = m -> length (sgrad f u) = m) -> convex_set n dom -> capable n dom hv h ->
    0 < fo_alpha opt <= 1 -> (forall e, fo_Lexact opt = Some e -> fo_L0 opt <= e) ->
    forall s1 k s, inv s1 -> reaches (fom_cond opt) body s1 k s -> inv s /\ fm_iterations s = (fm_iterations s1 + k)%nat.
  Proof. intros Ha Lb Hv Hl Hd Hc O1 O4. exact (reach_ok Ha Lb Hv Hl Hd (capable_sound Hc) O1 O4). Qed.
End Capable.
