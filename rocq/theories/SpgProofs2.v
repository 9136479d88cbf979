(** A smooth function on which the line search of spg runs out of evaluations. *)
From Coq Require Import List Arith Bool Lia Reals Lra Psatz.
From Verif Require Import Vec RVec RMat Loop LoopLemmas SolverSpec SolverLemmas SelModel SelProofs OptSpec SpgModel SpgSpec SpgProofs.
Import ListNotations.
Set Implicit Arguments.
Local Open Scope R_scope.

Definition hf (v : vec) : R := - v@0 + 2 ^ 60 * (Rmax 0 (v@0 - 1) * Rmax 0 (v@0 - 1)).
Definition hg (v : vec) : vec := [-1 + 2 ^ 61 * Rmax 0 (v@0 - 1)].
Definition hopt : spg_options := SPGOptions (/ 10 ^ 9) (/ 10 ^ 5) (/ 10 ^ 4) 1000 2000 10.
Lemma hsmooth : smooth_on 1 (fun _ => True) hf hg (2 ^ 61).
Proof.
  intros x d t Lx Ld _ Ht _. destruct x as [|a [|]]; try discriminate. destruct d as [|e [|]]; try discriminate.
  unfold hf, hg, radd, rscale, nrm2. cbn [map zipw nth rdot]. 
  assert (K : Rmax 0 (a + t * e - 1) * Rmax 0 (a + t * e - 1) <= Rmax 0 (a - 1) * Rmax 0 (a - 1) + 2 * Rmax 0 (a - 1) * (t * e) + (t * e) * (t * e)).
  { pose proof (Rle_0_sqr (t * e)) as S1. pose proof (Rle_0_sqr (a - 1 + t * e)) as S2. unfold Rsqr in *.
    unfold Rmax. destruct (Rle_dec 0 (a + t * e - 1)), (Rle_dec 0 (a - 1)); nra. }
  set (p := Rmax 0 (a - 1)) in *. set (q := Rmax 0 (a + t * e - 1)) in *. replace (2 ^ 61) with (2 * 2 ^ 60) by (simpl; ring).
  assert (0 < 2 ^ 60) by (apply pow_lt; lra). set (M := 2 ^ 60) in *.
  assert (M * (q * q) <= M * (p * p + 2 * p * (t * e) + t * e * (t * e))) by (apply Rmult_le_compat_l; lra).
  simpl. nra.
Qed.
Lemma hinit : spg_init hf hg (fun v => v) hopt [0] = SPGState [1] [-1] (-1) [0] [-1] (repeat (-1) 10) 1 1 2 2.
Proof.
  assert (G0 : hg [0] = [-1]). { unfold hg. cbn [nth]. f_equal. unfold Rmax. destruct (Rle_dec 0 (0 - 1)); lra. }
  assert (G1 : hg [1] = [-1]). { unfold hg. cbn [nth]. f_equal. unfold Rmax. destruct (Rle_dec 0 (1 - 1)); lra. }
  assert (F1 : hf [1] = -1). { unfold hf. cbn [nth]. unfold Rmax. destruct (Rle_dec 0 (1 - 1)); lra. }
  unfold spg_init. cbv zeta. rewrite G0. 
  assert (Dd : rsub (rsub [0] [-1]) [0] = [1]) by (cbn; f_equal; ring). rewrite Dd.
  assert (N1 : nrm1 [-1] = 1) by (cbn; rewrite Rabs_left by lra; ring). rewrite N1. destruct (Reqb_spec 1 0); [lra|].
  assert (Mn : Rmin 1 (1 / 1) = 1) by (unfold Rmin; destruct (Rle_dec 1 (1 / 1)); lra). rewrite Mn.
  assert (X1 : radd [0] (rscale 1 [1]) = [1]) by (cbn; f_equal; ring). rewrite X1, G1, F1.
  assert (D1 : rdot [-1] [1] = -1) by (cbn; ring). rewrite D1. reflexivity.
Qed.
Lemma hstep : exists s, spg_step hf hg (fun v => v) hopt (spg_init hf hg (fun v => v) hopt [0]) = Some s /\
  sg_f_calls s = 52%nat /\ 100 < hf (sg_x s).
Proof.
  rewrite hinit. unfold spg_step. cbn [sg_x sg_g sg_x_prev sg_g_prev sg_f_past so_suff_dec hopt].
  set (D := 2 ^ 23). assert (PD : D = 8388608) by (unfold D; simpl; ring).
  assert (Ls : spg_lambda (rsub [1] [0]) (rsub [-1] [-1]) = D).
  { unfold spg_lambda. cbv zeta. unfold rsub. cbn [zipw rdot]. unfold SPG_EPS. fold D. rewrite PD. unfold L_MIN, L_MAX.
    destruct (Reqb_spec ((1 - 0) * (-1 - -1) + 0 + / 8388608) 0) as [E|E].
    { assert (0 < / 8388608) by (apply Rinv_0_lt_compat; lra). lra. }
    replace (((1 - 0) * (1 - 0) + 0) / ((1 - 0) * (-1 - -1) + 0 + / 8388608)) with 8388608 by (field; lra).
    destruct (Rltb_spec 8388608 (/ 10 ^ 10)) as [H|H].
    { assert (/ 10 ^ 10 < 1) by (rewrite <- Rinv_1; apply Rinv_lt_contravar; lra). lra. }
    destruct (Rltb_spec (10 ^ 10) 8388608); lra. }
  rewrite Ls. assert (Dd : rsub (rsub [1] (rscale D [-1])) [1] = [D]) by (cbn; f_equal; ring). rewrite Dd.
  assert (De : rdot [-1] [D] = - D) by (cbn; ring). rewrite De.
  assert (Vm : vmax (repeat (-1) 10) = -1).
  { assert (Ne : repeat (-1) 10 <> []) by (simpl; discriminate). destruct (vmax_spec Ne) as [H _]. now apply repeat_spec in H. }
  rewrite Vm. replace ((repeat (-1) 10)@0) with (-1) by reflexivity.
  destruct (ls_total hf [1] [D] (-1) (-1) (/ 10 ^ 4) (- D)) as [l El]. rewrite El. eexists. split; [reflexivity|]. cbn [sg_x sg_f_calls].
  pose proof (ls_result _ _ _ _ _ _ _ El) as [_ [Cb _]]. unfold line_search in El. apply while_done in El as [j [Hj [Hr Hc]]].
  destruct (ls_reach Hr) as [[A [Ex [Ef [Elm _]]]] Ec].
  assert (Al : ls_alpha l = / 2 ^ j). { eapply ls_halving; [| | |exact Hr]; [|lra|lra]. rewrite <- Rinv_1. apply Rinv_lt_contravar; lra. }
  assert (P2 : 1 <= 2 ^ j <= 2 ^ 49). { split; [apply pow_R1_Rle; lra|apply Rle_pow; [lra|lia]]. }
  assert (V : ls_f l = -1 + ls_alpha l * D * (2 ^ 60 * (ls_alpha l * D) - 1)).
  { rewrite Ef, Ex. unfold hf, radd, rscale. cbn [map zipw nth]. assert (0 <= ls_alpha l * D) by (rewrite PD; lra).
    unfold Rmax. destruct (Rle_dec 0 (1 + ls_alpha l * D - 1)); [ring|lra]. }
  assert (Ai : / 2 ^ 49 <= ls_alpha l) by (rewrite Al; apply Rinv_le_contravar; lra).
  assert (AD : / 2 ^ 26 <= ls_alpha l * D).
  { replace (/ 2 ^ 26) with (/ 2 ^ 49 * D). - apply Rmult_le_compat_r; [rewrite PD; lra|auto]. - unfold D. replace (2 ^ 49) with (2 ^ 26 * 2 ^ 23) by (simpl; ring). field. }
  assert (I26 : / 2 ^ 26 * 2 ^ 26 = 1) by (apply Rinv_l, pow_nonzero; lra). assert (P26 : 0 < / 2 ^ 26) by (apply Rinv_0_lt_compat, pow_lt; lra).
  assert (Vb : 100 < ls_f l).
  { rewrite V. assert (Q : 2 ^ 34 - 1 <= 2 ^ 60 * (ls_alpha l * D) - 1).
    { assert (2 ^ 60 * / 2 ^ 26 <= 2 ^ 60 * (ls_alpha l * D)) by (apply Rmult_le_compat_l; [left; apply pow_lt; lra|auto]).
      replace (2 ^ 60) with (2 ^ 34 * 2 ^ 26) in H at 1 by (simpl; ring). nra. }
    assert (R34 : 2 ^ 34 = 256 * 2 ^ 26) by (simpl; ring). assert (1 <= 2 ^ 26) by (apply pow_R1_Rle; lra).
    assert (/ 2 ^ 26 * (2 ^ 34 - 1) <= ls_alpha l * D * (2 ^ 60 * (ls_alpha l * D) - 1)) by (apply Rmult_le_compat; lra).
    assert (/ 2 ^ 26 <= 1) by nra. rewrite R34 in *. nra. }
  split; [|rewrite Ef in Vb; exact Vb].
  unfold ls_cond in Hc. apply andb_false_iff in Hc as [Hc|Hc].
  - apply Rltb_false in Hc. exfalso. rewrite Elm in Hc. assert (0 < / 10 ^ 4) by (apply Rinv_0_lt_compat; lra).
    assert (0 < ls_alpha l * (/ 10 ^ 4 * D)) by (apply Rmult_lt_0_compat; [lra|rewrite PD; lra]). lra.
  - apply Nat.ltb_ge in Hc. lia.
Qed.
