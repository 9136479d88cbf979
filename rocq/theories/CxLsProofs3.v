(** LSQR on complex data: results. *)
From Coq Require Import List Arith Bool Lia Reals Lra.
From Verif Require Import Scalar Vec RVec RMat Loop LoopLemmas LinDep LopModel3 SolverSpec SolverLemmas LopSpec LopOpSpec LopLemmas LopProofs2 CGModel SlsModel LsqrModel LsqrSpec LsqrProofs LsqrLemmas LsqrMinNorm
  CondSpec CondProofs CondProofs2 CondProofs3 CondLemmas CondProps CxSpec CxModel CxProofs CxSpglModel CxPursuitModel CxPursuitProofs CxLsModel CxLsSpec CxLsProofs CxLsProofs2.
Import ListNotations.
Set Implicit Arguments.
Local Open Scope R_scope.

(** real LSQR: a larger limit does not change a run that stopped before the limit *)
Lemma lsqr_limit A b x0 damp atol btol conlim mx mx' fuel s : lsqr A b x0 damp atol btol conlim mx fuel = Done s ->
  (lq_it s < mx)%nat -> (mx <= mx')%nat -> lsqr A b x0 damp atol btol conlim mx' fuel = Done s.
Proof.
  intros H H1 H2. assert (C : forall s, lsqr_cond A b x0 atol btol conlim mx s = true -> lsqr_cond A b x0 atol btol conlim mx' s = true).
  { clear - H2. intros s. unfold lsqr_cond. destruct (Reqb _ 0 || Reqb _ 0)%bool; [auto|]. cbv zeta.
    destruct (Nat.ltb_spec (lq_it s) mx); [|discriminate]. destruct (Nat.ltb_spec (lq_it s) mx'); [auto|lia]. }
  apply (@while_weaken _ _ _ _ C fuel _ _ H). apply while_done in H as (j & _ & _ & F). revert F. unfold lsqr_cond. destruct (Reqb _ 0 || Reqb _ 0)%bool; [auto|]. cbv zeta.
  destruct (Nat.ltb_spec (lq_it s) mx); [|lia]. destruct (Nat.ltb_spec (lq_it s) mx'); [auto|lia].
Qed.

Section Results.
  Variables (n m : nat) (A : csimple_op) (b x0 : cvec) (damp atol btol conlim : R) (mx : nat).
  Hypothesis HA : is_adjoint m n (co_times A) (co_trans A).
  Hypothesis Hb : length b = m.
  Hypothesis Hx : length x0 = n.
  Notation Rch := (clsqr_after A b x0 damp atol btol conlim mx).
  Let HL := lifted A HA.
  Let Fb := flat_b b Hb.
  Let Fx := flat_x0 x0 Hx.
  Lemma crun_facts k s : Rch k s ->
    cq_r_norm s = sqrt (cdamped_objective A b x0 damp (cq_x s)) /\
    cq_atr_norm s = cnorm (cdamped_descent A b x0 damp (cq_x s)) /\
    ((0 < k)%nat -> cq_x_norm s = cnorm (vsub (cq_x s) x0)) /\
    cq_it s = S k /\ cq_n_times s = S k /\ cq_n_trans s = S k.
  Proof.
    intros H. destruct (fl_lsqr_after H) as [_ F]. pose proof (@lsqr_state_facts (2 * n) (2 * m) (lift_op A) (flat b) (flat x0) damp atol btol conlim mx HL Fb Fx _ _ F) as Q.
    cbn [fl_lsqr lq_r_norm lq_atr_norm lq_x_norm lq_x lq_it lq_n_times lq_n_trans] in Q.
    now rewrite lift_objective, lift_descent, <- flat_sub, !flat_nrm in Q.
  Qed.
  Lemma crun_final fuel s : clsqr A b x0 damp atol btol conlim mx fuel = Done s ->
    cq_r_norm s = sqrt (cdamped_objective A b x0 damp (cq_x s)) /\
    cq_atr_norm s = cnorm (cdamped_descent A b x0 damp (cq_x s)) /\
    ((1 < cq_it s)%nat -> cq_x_norm s = cnorm (vsub (cq_x s) x0)) /\
    cq_n_times s = cq_it s /\ cq_n_trans s = cq_it s /\
    (cq_it s <= Nat.max 1 mx)%nat /\ (cq_it s <= Nat.min m n + 1)%nat.
  Proof.
    intros H. pose proof (@lsqr_final (2 * n) (2 * m) (lift_op A) (flat b) (flat x0) damp atol btol conlim mx HL Fb Fx fuel _ (@fl_lsqr_run A b x0 damp atol btol conlim mx fuel s H)) as Q.
    cbn [fl_lsqr lq_r_norm lq_atr_norm lq_x_norm lq_x lq_it lq_n_times lq_n_trans] in Q.
    rewrite lift_objective, lift_descent, <- flat_sub, !flat_nrm in Q. destruct Q as (E1 & E2 & E3 & E4 & E5 & E6 & _).
    apply while_done in H as (k & _ & H & _). pose proof (crun_count HA Hb Hx H). destruct (crun_facts H) as (_ & _ & _ & E & _).
    repeat (split; auto). lia.
  Qed.
  Lemma crun_len k s : Rch k s -> length (cq_x s) = n.
  Proof.
    intros H. destruct (fl_lsqr_after H) as [_ F]. destruct (@lsqr_rest (2 * n) (2 * m) (lift_op A) (flat b) (flat x0) damp atol btol conlim mx HL Fb Fx _ _ F) as (_ & _ & E & _).
    cbn [fl_lsqr lq_x] in E. rewrite flat_len in E. lia.
  Qed.
  Lemma crun_total fuel : (Nat.min mx (Nat.min m n) <= fuel)%nat -> exists s, clsqr A b x0 damp atol btol conlim mx fuel = Done s.
  Proof.
    intros Hf. apply while_total.
    - intros k s H C B. destruct (fl_lsqr_after H) as [I F]. apply (@lsqr_nofail (2 * n) (2 * m) (lift_op A) (flat b) (flat x0) damp atol btol conlim mx HL Fb Fx _ _ F).
      + now rewrite fl_lsqr_cond.
      + now rewrite fl_lsqr_body, B.
    - intros k s H C. destruct (clsqr_body A damp s) as [s'|] eqn:E.
      + pose proof (crun_count HA Hb Hx (reach_S _ _ _ _ _ _ H C E)) as Q. destruct (crun_facts H) as (_ & _ & _ & E1 & _).
        unfold clsqr_cond in C. destruct (Reqb _ 0 || Reqb _ 0)%bool; [discriminate|]. destruct (Nat.ltb_spec (cq_it s) mx); [lia|discriminate].
      + exfalso. destruct (fl_lsqr_after H) as [I F]. apply (@lsqr_nofail (2 * n) (2 * m) (lift_op A) (flat b) (flat x0) damp atol btol conlim mx HL Fb Fx _ _ F); [now rewrite fl_lsqr_cond|now rewrite fl_lsqr_body, E].
  Qed.
  Lemma crun_nonincreasing k s s' : Rch k s -> Rch (S k) s' -> cdamped_objective A b x0 damp (cq_x s') <= cdamped_objective A b x0 damp (cq_x s).
  Proof.
    intros H H'. destruct (fl_lsqr_after H) as [_ F]. destruct (fl_lsqr_after H') as [_ F']. pose proof (@lsqr_nonincreasing (2 * n) (2 * m) (lift_op A) (flat b) (flat x0) damp atol btol conlim mx HL Fb Fx _ _ _ F F') as Q.
    cbn [fl_lsqr lq_x] in Q. now rewrite !lift_objective in Q.
  Qed.
  Lemma crun_stop fuel s : clsqr A b x0 damp atol btol conlim mx fuel = Done s ->
    (mx <= cq_it s)%nat \/ cdamped_objective A b x0 damp (cq_x s) <= 0 \/ cnorm (cdamped_descent A b x0 damp (cq_x s)) <= 0 \/
    (conlim <> 0 /\ 1 <= 1 / conlim * fst (cq_A_cond s)) \/
    cnorm (cdamped_descent A b x0 damp (cq_x s)) <= atol * cnorm (cdamped_descent A b x0 damp x0) \/
    sqrt (cdamped_objective A b x0 damp (cq_x s)) <= btol * sqrt (cdamped_objective A b x0 damp x0) + atol * cq_A_norm s * cq_x_norm s.
  Proof.
    intros H. pose proof (@lsqr_stop (2 * n) (2 * m) (lift_op A) (flat b) (flat x0) damp atol btol conlim mx HL Fb Fx fuel _ (@fl_lsqr_run A b x0 damp atol btol conlim mx fuel s H)) as Q.
    cbn [fl_lsqr lq_r_norm lq_atr_norm lq_x_norm lq_x lq_it lq_A_cond lq_A_norm] in Q.
    now rewrite !lift_objective, !lift_descent, !flat_nrm in Q.
  Qed.
  Lemma crun_cond_real fuel s : clsqr A b x0 damp atol btol conlim mx fuel = Done s -> snd (cq_A_cond s) = 0 /\ snd (cq_D_norm_sqr s) = 0.
  Proof. intros H. apply while_done in H as (k & _ & H & _). destruct (fl_lsqr_after H) as [(E1 & _ & E2) _]. auto. Qed.
  (** the Krylov space *)
  Let r0 := vsub b (co_times A x0).
  Let H0 := fun x => co_trans A (co_times A x).
  Let g0 := co_trans A r0.
  Lemma kry_add v w : kry H0 g0 v -> kry H0 g0 w -> kry H0 g0 (vadd v w).
  Proof.
    intros K1 K2. assert (Lg : length g0 = n) by (apply HA; now apply (@r0_len n m A b x0)).
    pose proof (kry_len (gram_self HA) Lg K1) as L1. pose proof (kry_len (gram_self HA) Lg K2) as L2.
    replace (vadd v w) with (vsub v (vscale (ofR (-1) : Cs) w)); [apply kry_sub; [exact K1|now apply kry_scale]|].
    apply flat_inj. rewrite flat_sub, flat_add, flat_scale. assert (length (flat v) = length (flat w)) by (rewrite !flat_len; f_equal; exact (eq_trans L1 (eq_sym L2))). veq.
  Qed.
  Lemma kry_zero : kry H0 g0 (@vzero Cs n).
  Proof.
    assert (Lg : length g0 = n) by (apply HA; now apply (@r0_len n m A b x0)).
    replace (@vzero Cs n) with (vscale (ofR 0 : Cs) g0); [apply kry_scale; constructor|].
    rewrite <- Lg. generalize g0. clear. intros x. induction x as [|z x IH]; [reflexivity|]. change (Cmul (0, 0) z :: vscale (ofR 0 : Cs) x = (0, 0) :: @vzero Cs (length x)).
    rewrite IH. f_equal. change Cx in z. destruct z. unfold Cmul. cbn. apply (f_equal2 pair); ring.
  Qed.
  Lemma split_comb : forall cs vs, length cs = length vs -> (forall v, In v vs -> length v = n /\ kry H0 g0 v) ->
    exists d1 d2, clincomb n cs vs = vadd d1 (ci d2) /\ length d1 = n /\ length d2 = n /\ kry H0 g0 d1 /\ kry H0 g0 d2 /\
      flat d1 = SolverSpec.lincomb (2 * n) (map fst cs) (map flat vs).
  Proof.
    assert (Lz : length (@vzero Cs n) = n) by apply repeat_length.
    induction cs as [|c cs IH]; intros [|v vs] Hl Hv; try discriminate.
    - exists (@vzero Cs n), (@vzero Cs n). cbn [clincomb map SolverSpec.lincomb]. split; [|split; [auto|]; split; [auto|]; split; [apply kry_zero|]; split; [apply kry_zero|]].
      + clear. induction n as [|k IH]; [reflexivity|]. change ((0, 0) :: @vzero Cs k = Cadd (0, 0) (Cmul (0, 1) (0, 0)) :: vadd (@vzero Cs k) (ci (@vzero Cs k))).
        rewrite <- IH. f_equal. unfold Cadd, Cmul. cbn. apply (f_equal2 pair); ring.
      + clear. replace (2 * n)%nat with (n + n)%nat by lia. induction n as [|k IH]; [reflexivity|]. replace (S k + S k)%nat with (S (S (k + k))) by lia.
        change (0 :: 0 :: flat (@vzero Cs k) = 0 :: 0 :: rzero (k + k)). now rewrite IH.
    - destruct (IH vs) as (d1 & d2 & E & L1 & L2 & K1 & K2 & F); [now injection Hl|intros w Hw; apply Hv; now right|].
      destruct (Hv v (or_introl eq_refl)) as [Lv Kv]. destruct c as [p q].
      exists (vadd (vscale (ofR p : Cs) v) d1), (vadd (vscale (ofR q : Cs) v) d2). cbn [clincomb map SolverSpec.lincomb fst]. rewrite E.
      split; [|split; [apply (@vadd_length Cs); auto; now rewrite (@vscale_length Cs)|]; split; [apply (@vadd_length Cs); auto; now rewrite (@vscale_length Cs)|]; split; [apply kry_add; auto; now apply kry_scale|]; split; [apply kry_add; auto; now apply kry_scale|]].
      + clear - Lv L1 L2. revert Lv L1 L2. generalize n. revert d1 d2. induction v as [|z v IH]; intros [|e1 d1] [|e2 d2] [|k] Lv L1 L2; try discriminate; [reflexivity|].
        injection Lv as Lv. injection L1 as L1. injection L2 as L2.
        change (Cadd (Cmul (p, q) z) (Cadd e1 (Cmul (0, 1) e2)) :: vadd (vscale ((p, q) : Cs) v) (vadd d1 (ci d2)) =
          Cadd (Cadd (Cmul (p, 0) z) e1) (Cmul (0, 1) (Cadd (Cmul (q, 0) z) e2)) :: vadd (vadd (vscale (ofR p : Cs) v) d1) (ci (vadd (vscale (ofR q : Cs) v) d2))).
        rewrite (IH d1 d2 k Lv L1 L2). f_equal. change Cx in z, e1, e2. destruct z, e1, e2. unfold Cadd, Cmul. cbn. apply (f_equal2 pair); ring.
      + rewrite flat_add, flat_scale, F. reflexivity.
  Qed.
  Lemma kry_iter i : kry H0 g0 (Nat.iter i H0 g0).
  Proof. induction i as [|i IH]; cbn; [constructor|]. now apply kry_H. Qed.
  Lemma flat_iter i : Nat.iter i (fun z => so_trans (lift_op A) (so_times (lift_op A) z)) (flat g0) = flat (Nat.iter i H0 g0).
  Proof.
    induction i as [|i IH]; [reflexivity|]. change (so_trans (lift_op A) (so_times (lift_op A) (Nat.iter i (fun z => so_trans (lift_op A) (so_times (lift_op A) z)) (flat g0))) = flat (H0 (Nat.iter i H0 g0))).
    rewrite IH. cbn [lift_op so_times so_trans]. now rewrite !lift_flat.
  Qed.
  Lemma objective_split d1 d2 : kry H0 g0 d1 -> kry H0 g0 d2 ->
    cdamped_objective A b x0 damp (vadd x0 (vadd d1 (ci d2))) = cdamped_objective A b x0 damp (vadd x0 d1) + (cnsq (co_times A d2) + damp * damp * cnsq d2).
  Proof.
    intros K1 K2. pose proof (@r0_len n m A b x0 HA Hb Hx) as Lr. fold r0 in Lr. assert (Lg : length g0 = n) by (now apply HA).
    pose proof (kry_len (gram_self HA) Lg K1) as L1. pose proof (kry_len (gram_self HA) Lg K2) as L2.
    destruct (adjoint_linear HA) as [Fa Fs]. assert (Li : length (ci d2) = n) by (unfold ci; now rewrite (@vscale_length Cs)).
    assert (LA : forall x, length x = n -> length (co_times A x) = m) by apply HA.
    assert (LT : forall x, length x = m -> length (co_trans A x) = n) by apply HA.
    assert (L12 : length (vadd d1 (ci d2)) = n) by now apply (@vadd_length Cs).
    rewrite <- !lift_objective. unfold damped_objective. cbn [lift_op so_times]. rewrite !lift_flat. rewrite (Fa x0 (vadd d1 (ci d2)) Hx L12), (Fa d1 (ci d2) L1 Li), (Fa x0 d1 Hx L1).
    assert (Ei : co_times A (ci d2) = ci (co_times A d2)) by (unfold ci; now apply Fs). rewrite Ei.
    assert (Fl : forall (k : nat) (x : cvec), length x = k -> length (flat x) = (2 * k)%nat) by (intros k x E; rewrite flat_len; now rewrite E).
    assert (Lci : length (ci (co_times A d2)) = m) by (unfold ci; rewrite (@vscale_length Cs); now apply LA).
    assert (Z1 : rdot (flat d1) (flat (ci d2)) = 0) by (rewrite ci_dot, (kry_real (gram_self HA) Lg K1 K2); ring).
    assert (Z2 : rdot (rsub (flat b) (flat (co_times A (vadd x0 d1)))) (flat (ci (co_times A d2))) = 0).
    { rewrite <- flat_sub, ci_dot. replace (vsub b (co_times A (vadd x0 d1))) with (vsub r0 (co_times A d1)).
      - assert (E : im (vsub r0 (co_times A d1)) (co_times A d2) = im (vsub g0 (H0 d1)) d2).
        { unfold im. rewrite (@inner_sub_l Cs r0 (co_times A d1)) by exact (eq_trans Lr (eq_sym (LA _ L1))).
          assert (LH : length (H0 d1) = n) by (apply LT, LA; auto).
          rewrite (@inner_sub_l Cs g0 (H0 d1)) by exact (eq_trans Lg (eq_sym LH)). unfold g0, H0.
          destruct (adjoint_sym HA) as (_ & _ & AB). now rewrite !AB by auto. }
        rewrite E, (kry_real (gram_self HA) Lg (kry_sub (kry_g _ _) (kry_H K1)) K2). ring.
      - apply flat_inj. unfold r0. rewrite !flat_sub, (Fa x0 d1 Hx L1), flat_add. pose proof (Fl _ _ Hb). pose proof (Fl _ _ (LA _ Hx)). pose proof (Fl _ _ (LA _ L1)). veq. }
    rewrite !flat_add. rewrite (Fa x0 d1 Hx L1), flat_add in Z2.
    pose proof (Fl _ _ Hb). pose proof (Fl _ _ (LA _ Hx)). pose proof (Fl _ _ (LA _ L1)). pose proof (Fl _ _ Lci). pose proof (Fl _ _ Hx). pose proof (Fl _ _ L1). pose proof (Fl _ _ Li).
    rewrite <- !flat_nrm2. unfold nrm2. pose proof (ci_dot2 (co_times A d2) (co_times A d2)) as C1. pose proof (ci_dot2 d2 d2) as C2.
    set (B := flat b) in *. set (a0 := flat (co_times A x0)) in *. set (a1 := flat (co_times A d1)) in *. set (a2 := flat (ci (co_times A d2))) in *.
    set (y0 := flat x0) in *. set (y1 := flat d1) in *. set (y2 := flat (ci d2)) in *. rewrite <- C1, <- C2.
    replace (rsub B (radd a0 (radd a1 a2))) with (rsub (rsub B (radd a0 a1)) a2) by veq.
    replace (rsub (radd y0 (radd y1 y2)) y0) with (radd y1 y2) by veq. replace (rsub (radd y0 y1) y0) with y1 by veq.
    set (w := rsub B (radd a0 a1)) in *. assert (length w = (2 * m)%nat) by (unfold w; vl).
    vdot. rewrite (rdot_sym a2 w), (rdot_sym y2 y1), Z1, Z2. ring.
  Qed.
  Lemma crun_krylov k s d : Rch k s -> cin_span n (ckrylov H0 g0 k) d ->
    cdamped_objective A b x0 damp (cq_x s) <= cdamped_objective A b x0 damp (vadd x0 d).
  Proof.
    intros H (cs & Lc & ->). assert (Lg : length g0 = n) by (apply HA; now apply (@r0_len n m A b x0)).
    destruct (@split_comb cs (ckrylov H0 g0 k) Lc) as (d1 & d2 & -> & L1 & L2 & K1 & K2 & F).
    { intros v Hv. unfold ckrylov in Hv. apply in_map_iff in Hv as (i & <- & _). pose proof (kry_iter i) as K. split; [exact (kry_len (gram_self HA) Lg K)|exact K]. }
    rewrite objective_split by auto. destruct (fl_lsqr_after H) as [_ Fa].
    assert (Lf : length (flat d1) = (2 * n)%nat) by (rewrite flat_len; now rewrite L1).
    assert (Sp : in_span (2 * n) (krylov (fun z => so_trans (lift_op A) (so_times (lift_op A) z)) (so_trans (lift_op A) (rsub (flat b) (so_times (lift_op A) (flat x0)))) k) (flat d1)).
    { exists (map fst cs). split; [unfold ckrylov in Lc; unfold krylov; rewrite !map_length in *; exact Lc|]. rewrite F. f_equal. unfold krylov, ckrylov. rewrite map_map. apply map_ext. intros i.
      cbn [lift_op so_times so_trans] in *. rewrite lift_flat, <- flat_sub, lift_flat. symmetry. apply (flat_iter i). }
    pose proof (@lsqr_krylov (2 * n) (2 * m) (lift_op A) (flat b) (flat x0) damp atol btol conlim mx HL Fb Fx _ _ _ Fa Sp Lf) as Q. cbn [fl_lsqr lq_x] in Q. rewrite <- flat_add, !lift_objective in Q.
    pose proof (cnsq_nonneg (co_times A d2)). pose proof (cnsq_nonneg d2). assert (0 <= damp * damp * cnsq d2) by (apply Rmult_le_pos; auto; nra). lra.
  Qed.
End Results.
Section Solves.
  Variables (n m : nat) (A : csimple_op) (b x0 : cvec) (mx : nat).
  Hypothesis HA : is_adjoint m n (co_times A) (co_trans A).
  Hypothesis Hb : length b = m.
  Hypothesis Hm : (Nat.min m n + 1 < mx)%nat.
  Lemma big_run damp fuel s : length x0 = n -> clsqr A b x0 damp 0 0 0 mx fuel = Done s ->
    lsqr (lift_op A) (flat b) (flat x0) damp 0 0 0 (mx + Nat.min (2 * m) (2 * n) + 2) fuel = Done (fl_lsqr s).
  Proof.
    intros Hx H. apply lsqr_limit with mx; [now apply fl_lsqr_run| |lia]. destruct (@crun_final n m A b x0 damp 0 0 0 mx HA Hb Hx fuel s H) as (_ & _ & _ & _ & _ & _ & Q).
    cbn [fl_lsqr lq_it]. lia.
  Qed.
  Lemma crun_solves damp fuel s z : length x0 = n -> length z = n -> clsqr A b x0 damp 0 0 0 mx fuel = Done s ->
    cdamped_objective A b x0 damp (cq_x s) <= cdamped_objective A b x0 damp z.
  Proof.
    intros Hx Lz H. rewrite <- !lift_objective.
    pose proof (@big_run damp fuel s Hx H) as Q.
    refine (@lsqr_solves (2 * n) (2 * m) _ _ _ damp 0 0 0 _ (lifted A HA) (flat_b b Hb) (flat_x0 x0 Hx) fuel (fl_lsqr s) (flat z) eq_refl eq_refl eq_refl _ (flat_x0 z Lz) Q). lia.
  Qed.
End Solves.
Lemma flat_zero n : flat (@vzero Cs n) = rzero (2 * n).
Proof.
  replace (2 * n)%nat with (n + n)%nat by lia. induction n as [|k IH]; [reflexivity|]. replace (S k + S k)%nat with (S (S (k + k))) by lia.
  change (0 :: 0 :: flat (@vzero Cs k) = 0 :: 0 :: rzero (k + k)). now rewrite IH.
Qed.
Lemma crun_min_norm n m A b mx fuel s z : is_adjoint m n (co_times A) (co_trans A) -> length b = m -> (Nat.min m n + 1 < mx)%nat ->
  clsqr A b (@vzero Cs n) 0 0 0 0 mx fuel = Done s -> length z = n ->
  cnsq (vsub b (co_times A (cq_x s))) <= cnsq (vsub b (co_times A z)) /\
  (cnsq (vsub b (co_times A z)) = cnsq (vsub b (co_times A (cq_x s))) -> cnsq (cq_x s) <= cnsq z).
Proof.
  intros HA Hb Hm H Lz. assert (L0 : length (@vzero Cs n) = n) by apply repeat_length. pose proof (@big_run n m A b (@vzero Cs n) mx HA Hb Hm 0 fuel s L0 H) as Q.
  rewrite flat_zero in Q. assert (Hm' : (Nat.min (2 * m) (2 * n) + 1 < mx + Nat.min (2 * m) (2 * n) + 2)%nat) by lia.
  assert (Lf : length (flat z) = (2 * n)%nat) by (rewrite flat_len; now rewrite Lz).
  pose proof (@ls_opt (2 * n) (2 * m) _ _ _ fuel _ (lifted A HA) (flat_b b Hb) Hm' Q (flat z) Lf) as Q1.
  pose proof (@ls_min_norm (2 * n) (2 * m) _ _ _ fuel _ (lifted A HA) (flat_b b Hb) Hm' Q (flat z) Lf) as Q2.
  cbn [lift_op so_times fl_lsqr lq_x] in Q1, Q2. rewrite !lift_flat, <- !flat_sub, !flat_nrm2 in Q1, Q2. split; [exact Q1|]. intros E. rewrite <- (flat_nrm2 (cq_x s)), <- (flat_nrm2 z). exact (Q2 E).
Qed.
(** the rate *)
Lemma crun_rate n m A b x0 z damp atol btol conlim mx mu L k s : is_adjoint m n (co_times A) (co_trans A) ->
  length b = m -> length x0 = n -> length z = n ->
  (forall y, length y = n -> cdamped_objective A b x0 damp z <= cdamped_objective A b x0 damp y) ->
  0 < mu <= L -> (forall y, length y = m -> mu * cnsq (co_trans A y) <= cnsq (co_times A (co_trans A y)) <= L * cnsq (co_trans A y)) ->
  clsqr_after A b x0 damp atol btol conlim mx k s ->
  cdamped_objective A b x0 damp (cq_x s) - cdamped_objective A b x0 damp z <=
  (2 * cond_rate (mu + damp * damp) (L + damp * damp) ^ k) ^ 2 * (cdamped_objective A b x0 damp x0 - cdamped_objective A b x0 damp z).
Proof.
  intros HA Hb Hx Lz Mz HL Bd H. destruct (fl_lsqr_after H) as [_ F]. rewrite <- !lift_objective.
  apply (@C88_lsqr (2 * n) (2 * m) (lift_op A) (flat b) (flat x0) (flat z) damp atol btol conlim mx mu L k (fl_lsqr s)); auto.
  - exact (lifted A HA).
  - exact (flat_b b Hb).
  - exact (flat_x0 x0 Hx).
  - exact (flat_x0 z Lz).
  - intros y Ly. rewrite <- (flat_unflat Ly), !lift_objective. apply Mz. now apply unflat_len.
  - intros y Ly. rewrite <- (flat_unflat Ly). cbn [lift_op so_times so_trans]. rewrite !lift_flat, !flat_nrm2. apply Bd. now apply unflat_len.
Qed.
Lemma crun_geometric n m A : is_adjoint m n (co_times A) (co_trans A) ->
  exists rho, 0 <= rho < 1 /\ forall b x0 z atol btol conlim mx k s,
    length b = m -> length x0 = n -> length z = n ->
    (forall y, length y = n -> cdamped_objective A b x0 0 z <= cdamped_objective A b x0 0 y) ->
    clsqr_after A b x0 0 atol btol conlim mx k s ->
    cdamped_objective A b x0 0 (cq_x s) - cdamped_objective A b x0 0 z <= (2 * rho ^ k) ^ 2 * (cdamped_objective A b x0 0 x0 - cdamped_objective A b x0 0 z).
Proof.
  intros HA. destruct (C88_lsqr_geometric (2 * n) (2 * m) (lift_op A) (lifted A HA)) as (rho & Hr & Q). exists rho. split; auto.
  intros b x0 z atol btol conlim mx k s Hb Hx Lz Mz H. destruct (fl_lsqr_after H) as [_ F]. rewrite <- !lift_objective.
  apply (Q (flat b) (flat x0) (flat z) atol btol conlim mx k (fl_lsqr s)); auto.
  - exact (flat_b b Hb).
  - exact (flat_x0 x0 Hx).
  - exact (flat_x0 z Lz).
  - intros y Ly. rewrite <- (flat_unflat Ly), !lift_objective. apply Mz. now apply unflat_len.
Qed.
