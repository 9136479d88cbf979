From Coq Require Import List Arith Bool Lia Reals Lra.
From Verif Require Import Scalar Vec RVec Loop OptModel OptProofs OptProofs2 SortedL1Model SelModel SolverSpec PursuitModel PursuitSpec PursuitProofs5 LsqrMinNorm CxSpec CxProofs CxSpglModel CxSpglProofs CxPursuitModel CxPursuitSpec CxPursuitProofs.
Import ListNotations.
Set Implicit Arguments.
Local Open Scope R_scope.

(** *** an exact complex least squares solver exists *)
Fixpoint both (cols : list cvec) : list vec :=
  match cols with [] => [] | c :: cols => flat c :: flat (vscale ((0, 1) : Cs) c) :: both cols end.
Lemma both_len m cols : (forall c, In c cols -> length c = m) -> forall v, In v (both cols) -> length v = (2 * m)%nat.
Proof.
  induction cols as [|c cols IH]; intros H v Hv; [destruct Hv|]. cbn [both] in Hv. destruct Hv as [<-|[<-|Hv]].
  - rewrite flat_len. f_equal. apply H. now left.
  - rewrite flat_len, vscale_length. f_equal. apply H. now left.
  - apply IH; auto. intros; apply H; now right.
Qed.
Lemma both_length cols : length (both cols) = (2 * length cols)%nat.
Proof. induction cols as [|c cols IH]; [reflexivity|]. cbn [both length]. rewrite IH. lia. Qed.
Lemma flat_zero m : flat (vzero m : cvec) = rzero (2 * m).
Proof. induction m as [|m IH]; [reflexivity|]. replace (2 * S m)%nat with (S (S (2 * m))) by lia. cbn [flat vzero repeat]. unfold vzero in IH. rewrite IH. reflexivity. Qed.
Lemma flat_cscale (a : Cs) (v : cvec) : flat (vscale a v) = radd (rscale (fst (a : Cx)) (flat v)) (rscale (snd (a : Cx)) (flat (vscale ((0, 1) : Cs) v))).
Proof.
  induction v as [|b v IH]; [reflexivity|]. change (vscale a (b :: v)) with ((smul a b : Cs) :: vscale a v). change (vscale ((0, 1) : Cs) (b :: v)) with ((smul ((0, 1) : Cs) b : Cs) :: vscale ((0, 1) : Cs) v).
  cbn [flat]. rewrite IH. unfold radd, rscale. cbn. destruct a as [a1 a2], b as [b1 b2]. cbn. f_equal; [ring|]. f_equal. ring.
Qed.
Lemma radd_assoc3 : forall u v w : vec, radd (radd u v) w = radd u (radd v w).
Proof. unfold radd. induction u as [|p u IH]; intros [|q v] [|r w]; try reflexivity. cbn. f_equal; [ring|apply IH]. Qed.
Lemma flat_lincomb m : forall (z : cvec) cols, flat (@Vec.lincomb Cs m z cols) = lincomb (2 * m) (flat z) (both cols).
Proof.
  induction z as [|a z IH]; intros [|c cols]; try exact (flat_zero m).
  change (flat (vadd (vscale a c) (@Vec.lincomb Cs m z cols)) = radd (rscale (fst (a : Cx)) (flat c)) (radd (rscale (snd (a : Cx)) (flat (vscale ((0, 1) : Cs) c))) (lincomb (2 * m) (flat z) (both cols)))).
  rewrite flat_add, IH, flat_cscale. apply radd_assoc3.
Qed.
Definition clstsq (cols : list cvec) (y : cvec) : cvec := unflat (exact_lstsq (both cols) (flat y)).
Lemma clstsq_ok : cleast_squares_solver clstsq.
Proof.
  destruct exact_lstsq_ok as [H _]. intros m cols y Ly HC.
  assert (Lf : length (flat y) = (2 * m)%nat) by (rewrite flat_len; f_equal; exact Ly).
  destruct (H (2 * m)%nat (both cols) (flat y) Lf (both_len cols HC)) as [H1 H2]. rewrite both_length in H1.
  split; [now apply unflat_len|]. intros z Lz.
  rewrite <- !flat_nrm2, !flat_sub, !flat_lincomb. unfold clstsq. rewrite (@flat_unflat (length cols)) by exact H1.
  apply H2. rewrite both_length, flat_len. f_equal. exact Lz.
Qed.

(** *** orthonormal atoms: the standard basis of C^n *)
Definition cstd (n : nat) : cdictionary := CDict n (fun r => r) (fun i => tab n (fun j => if (j =? i)%nat then (1, 0) else (0, 0))).
Ltac cxr := cbn; unfold Cadd, Cmul, Csub, Cconj, Copp; cbn; repeat (apply (f_equal2 cons); [apply (f_equal2 pair); field|]); try reflexivity.
Lemma argmax4 a b c d : argmax [a; b; c; d] = if Rltb a b then argmax_from 2 1 b [c; d] else argmax_from 2 0 a [c; d]. Proof. reflexivity. Qed.
Lemma cabs_re a : cabs (a, 0) = Rabs a.
Proof. unfold cabs. cbn. rewrite Rmult_0_l, Rplus_0_r. apply sqrt_Rsqr_abs. Qed.
Lemma cabs_im a : cabs (0, a) = Rabs a.
Proof. unfold cabs. cbn. rewrite Rmult_0_l, Rplus_0_l. apply sqrt_Rsqr_abs. Qed.

Lemma cabs_lt a b c d : a * a + b * b < c * c + d * d -> cabs (a, b) < cabs (c, d).
Proof. intros H. unfold cabs. cbn. apply sqrt_lt_1; [| |exact H]; apply Rplus_le_le_0_compat; apply Rle_0_sqr. Qed.
Lemma cabs_le a b c d : a * a + b * b <= c * c + d * d -> cabs (a, b) <= cabs (c, d).
Proof. intros H. unfold cabs. cbn. apply sqrt_le_1; [| |exact H]; apply Rplus_le_le_0_compat; apply Rle_0_sqr. Qed.
Lemma ltb_cabs_t (p q : Cx) : fst p * fst p + snd p * snd p < fst q * fst q + snd q * snd q -> Rltb (cabs p) (cabs q) = true.
Proof. destruct p, q. intros H. apply cabs_lt in H. destruct (Rltb_spec (cabs (r, r0)) (cabs (r1, r2))); [reflexivity|contradiction]. Qed.
Lemma ltb_cabs_f (p q : Cx) : fst q * fst q + snd q * snd q <= fst p * fst p + snd p * snd p -> Rltb (cabs p) (cabs q) = false.
Proof. destruct p, q. intros H. apply cabs_le in H. destruct (Rltb_spec (cabs (r, r0)) (cabs (r1, r2))) as [L|L]; [exfalso; exact (Rlt_not_le _ _ L H)|reflexivity]. Qed.

(** *** OMP: the residual measure r^T r vanishes on a residual that is not zero *)
Definition y4 : cvec := [(5, 0); (4, 0); (2, 0); (0, 2)].
Definition yn4 : cvec := [(5 / 7, 0); (4 / 7, 0); (2 / 7, 0); (0, 2 / 7)].
Lemma amax_a a b c d : Rltb a b = false -> Rltb a c = false -> Rltb a d = false -> argmax [a; b; c; d] = 0%nat.
Proof. intros H1 H2 H3. unfold argmax, argmax_from. now rewrite H1, H2, H3. Qed.
Lemma amax_b a b c d : Rltb a b = true -> Rltb b c = false -> Rltb b d = false -> argmax [a; b; c; d] = 1%nat.
Proof. intros H1 H2 H3. unfold argmax, argmax_from. now rewrite H1, H2, H3. Qed.
Lemma cstd4_0 : cd_atom (cstd 4) 0 = [(1, 0); (0, 0); (0, 0); (0, 0)]. Proof. reflexivity. Qed.
Lemma cstd4_1 : cd_atom (cstd 4) 1 = [(0, 0); (1, 0); (0, 0); (0, 0)]. Proof. reflexivity. Qed.
Lemma energy_y4 : energy y4 = 49.
Proof. rewrite energy_cnsq. unfold cnsq, y4. cbn. unfold Cnsq. cbn. lra. Qed.
Lemma omp_init4 : comp_init (cstd 4) yn4 = COMPState [(5 / 7, 0)] [0%nat] [(0, 0); (4 / 7, 0); (2 / 7, 0); (0, 2 / 7)] [[(1, 0)]] (1, 0) 1.
Proof.
  unfold comp_init. cbn [cstd cd_trans]. unfold cabs_max_idx, yn4. cbn [map].
  rewrite amax_a by (apply ltb_cabs_f; cbn; lra). cbn [nth]. change (tab 4 _) with (cd_atom (cstd 4) 0). rewrite cstd4_0. f_equal.
  - cxr.
  - rewrite energy_cnsq. unfold cnsq. cbn. unfold Cnsq. cbn. apply (f_equal2 pair); lra.
Qed.
Lemma comp_step_eq solve_L spd csqrt D y s i v L x r :
  cabs_max_idx (cd_trans D (com_r s)) = i -> map (fun j => inner (cd_atom D j) (cd_atom D i) : Cx) (com_I s) = v ->
  cgram_chol_update solve_L csqrt (com_L s) v = L -> spd L (cgather (cd_trans D y) (com_I s ++ [i])) = x ->
  vsub y (csynth D (length y) (com_I s ++ [i]) x) = r ->
  comp_step solve_L spd csqrt D y s = Some (COMPState x (com_I s ++ [i]) r L (sumsq r) (S (com_it s))).
Proof. intros <- <- <- <- <-. reflexivity. Qed.
Lemma omp_step4 solve_L spd csqrt :
  solve_L [[(1, 0)]] [(0, 0)] = [(0, 0)] -> csqrt (1, 0) = (1, 0) -> (forall b, length b = 2%nat -> spd [[(1, 0); (0, 0)]; [(0, 0); (1, 0)]] b = b) ->
  comp_step solve_L spd csqrt (cstd 4) yn4 (comp_init (cstd 4) yn4) =
  Some (COMPState [(5 / 7, 0); (4 / 7, 0)] [0%nat; 1%nat] [(0, 0); (0, 0); (2 / 7, 0); (0, 2 / 7)] [[(1, 0); (0, 0)]; [(0, 0); (1, 0)]] (0, 0) 2).
Proof.
  intros H1 H2 H3. rewrite omp_init4.
  rewrite (@comp_step_eq solve_L spd csqrt (cstd 4) yn4 _ 1%nat [(0, 0)] [[(1, 0); (0, 0)]; [(0, 0); (1, 0)]] [(5 / 7, 0); (4 / 7, 0)] [(0, 0); (0, 0); (2 / 7, 0); (0, 2 / 7)]).
  - cbn [com_I com_it app]. do 2 f_equal. unfold sumsq. cbn. unfold Cadd, Cmul. cbn. apply (f_equal2 pair); lra.
  - unfold cabs_max_idx. cbn [com_r cstd cd_trans map]. apply amax_b; first [apply ltb_cabs_t; cbn; lra|apply ltb_cabs_f; cbn; lra].
  - cbn [com_I map]. rewrite cstd4_0, cstd4_1. apply (f_equal2 cons); [|reflexivity]. cbn. unfold Cadd, Cmul, Cconj. cbn. apply (f_equal2 pair); lra.
  - cbn [com_L]. unfold cgram_chol_update. rewrite H1.
    replace (Csub (1, 0) (sumsq [(0, 0)])) with ((1, 0) : Cx) by (unfold sumsq; cbn; unfold Csub, Cadd, Cmul; cbn; apply (f_equal2 pair); lra). rewrite H2. reflexivity.
  - rewrite H3 by reflexivity. reflexivity.
  - cbn [com_I app]. unfold csynth. cbn [map]. rewrite cstd4_0, cstd4_1. unfold yn4. cbn. unfold Csub, Cadd, Cmul. cbn.
    repeat (apply (f_equal2 cons); [apply (f_equal2 pair); lra|]). reflexivity.
Qed.
Lemma yn4_eq : vscale (ofR (1 / sqrt (energy y4)) : Cs) y4 = yn4 /\ sqrt (energy y4) = 7.
Proof.
  rewrite energy_y4. replace 49 with (7 * 7) by ring. rewrite sqrt_square by lra. split; [|reflexivity]. unfold y4, yn4. cbn. unfold Cmul. cbn.
  repeat (apply (f_equal2 cons); [apply (f_equal2 pair); lra|]). reflexivity.
Qed.
Lemma Cgtb_zero t : 0 <= t -> Cgtb (0, 0) (t, 0) = false.
Proof. intros H. unfold Cgtb. cbn. destruct (Rltb_spec t 0); [lra|]. destruct (Rltb_spec 0 0); [lra|]. now rewrite andb_false_r. Qed.
Lemma comp_stops4 solve_L spd csqrt rtol fuel :
  solve_L [[(1, 0)]] [(0, 0)] = [(0, 0)] -> csqrt (1, 0) = (1, 0) -> (forall b, length b = 2%nat -> spd [[(1, 0); (0, 0)]; [(0, 0); (1, 0)]] b = b) ->
  0 <= rtol < 1 -> (2 <= fuel)%nat ->
  exists s, comp solve_L spd csqrt (cstd 4) y4 4 rtol fuel = Done s /\ com_it s = 2%nat /\ com_I s = [0%nat; 1%nat] /\ com_r s = [(0, 0); (0, 0); (2, 0); (0, 2)] /\ com_rn s = (0, 0).
Proof.
  intros H1 H2 H3 Hr Hf. unfold comp. destruct yn4_eq as [E1 E2]. rewrite E1, E2. destruct (Reqb_spec 7 0) as [Q|_]; [lra|].
  destruct fuel as [|[|fuel]]; [lia|lia|]. cbn [while_].
  assert (C1 : comp_cond 4 rtol (comp_init (cstd 4) yn4) = true).
  { rewrite omp_init4. unfold comp_cond. cbn [com_rn com_it]. unfold Cgtb. cbn [fst snd]. destruct (Rltb_spec (rtol ^ 2) 1); [reflexivity|nra]. }
  rewrite C1, (omp_step4 _ _ _ H1 H2 H3).
  assert (C2 : forall x J r L, comp_cond 4 rtol (COMPState x J r L (0, 0) 2) = false).
  { intros. unfold comp_cond. cbn [com_rn com_it]. rewrite Cgtb_zero by nra. reflexivity. }
  assert (W : forall x J r L, while_ (comp_cond 4 rtol) (comp_step solve_L spd csqrt (cstd 4) yn4) (S fuel) (COMPState x J r L (0, 0) 2) = Done (COMPState x J r L (0, 0) 2)).
  { intros. cbn [while_]. rewrite C2. reflexivity. }
  cbn [while_] in W. rewrite W. eexists. split; [reflexivity|]. cbn [com_it com_I com_r com_rn]. repeat split.
  - cbn. unfold Cmul. cbn. repeat (apply (f_equal2 cons); [apply (f_equal2 pair); lra|]). reflexivity.
  - unfold Cmul. cbn. apply (f_equal2 pair); lra.
Qed.

(** *** OMP: the triangular factor is that of a different matrix *)
Definition d22 : cdictionary :=
  CDict 2 (fun r => [(inner ([(1, 0); (0, 0)] : cvec) r : Cx); inner ([(0, 3 / 5); (4 / 5, 0)] : cvec) r])
          (fun i => if (i =? 0)%nat then [(1, 0); (0, 0)] else [(0, 3 / 5); (4 / 5, 0)]).
Definition y22 : cvec := [(4 / 5, 0); (3 / 5, 0)].
Lemma d22_valid : cvalid_dict 2 d22.
Proof.
  split; [|split].
  - intros [|i] Hi; reflexivity.
  - reflexivity.
  - intros r [|[|i]] Lr Hi; try reflexivity. cbn in Hi. lia.
Qed.
(** x solves L op(L) x = b for the factor L = [[1, 0], [w, s]], op(L) the transpose or the conjugate transpose *)
Definition solves22 (c : Cx -> Cx) (w s : Cx) (b x : cvec) : Prop :=
  exists x0 x1 b0 b1, x = [x0; x1] /\ b = [b0; b1] /\ Cadd x0 (Cmul (c w) x1) = b0 /\
    Cadd (Cmul w x0) (Cmul (Cadd (Cmul w (c w)) (Cmul s (c s))) x1) = b1.
Lemma omp_init22 : comp_init d22 y22 = COMPState [(4 / 5, 0)] [0%nat] [(0, 0); (3 / 5, 0)] [[(1, 0)]] (1, 0) 1.
Proof.
  unfold comp_init. assert (E : cd_trans d22 y22 = [(4 / 5, 0); (12 / 25, - (12 / 25))]).
  { cbn. unfold Cadd, Cmul, Cconj. cbn. repeat (apply (f_equal2 cons); [apply (f_equal2 pair); lra|]). reflexivity. }
  rewrite E. assert (I0 : cabs_max_idx [(4 / 5, 0); (12 / 25, - (12 / 25))] = 0%nat).
  { unfold cabs_max_idx, argmax. cbn [map argmax_from]. rewrite ltb_cabs_f by (cbn; lra). reflexivity. }
  rewrite I0. cbn [nth]. f_equal.
  - cbn. unfold Csub, Cmul. cbn. repeat (apply (f_equal2 cons); [apply (f_equal2 pair); lra|]). reflexivity.
  - rewrite energy_cnsq. unfold cnsq. cbn. unfold Cnsq. cbn. apply (f_equal2 pair); lra.
Qed.
Lemma omp_step22 solve_L spd csqrt c : c = (fun z => z) \/ c = Cconj ->
  solve_L [[(1, 0)]] [(0, 3 / 5)] = [(0, 3 / 5)] -> csqrt (34 / 25, 0) = (sqrt (34 / 25), 0) ->
  (forall w s b, length b = 2%nat -> s <> (0, 0) -> solves22 c w s b (spd [[(1, 0); (0, 0)]; [w; s]] b)) ->
  exists s, comp_step solve_L spd csqrt d22 y22 (comp_init d22 y22) = Some s /\ com_I s = [0%nat; 1%nat] /\
    nth 1 (com_r s) (0, 0) = (27 / 85, 48 / 85).
Proof.
  intros Hc H1 H2 H3. rewrite omp_init22.
  assert (Q : sqrt (34 / 25) * sqrt (34 / 25) = 34 / 25) by (apply sqrt_sqrt; lra).
  assert (S0 : (sqrt (34 / 25), 0) <> (0, 0)) by (intros [= E]; rewrite E in Q; lra).
  set (q := sqrt (34 / 25)) in *.
  assert (Hb : cgather (cd_trans d22 y22) ([0%nat] ++ [1%nat]) = [(4 / 5, 0); (12 / 25, - (12 / 25))]).
  { cbn. unfold Cadd, Cmul, Cconj. cbn. repeat (apply (f_equal2 cons); [apply (f_equal2 pair); lra|]). reflexivity. }
  destruct (H3 (0, 3 / 5) (q, 0) [(4 / 5, 0); (12 / 25, - (12 / 25))] eq_refl S0) as (x0 & x1 & b0 & b1 & E1 & E2 & E3 & E4).
  injection E2 as <- <-.
  assert (X1 : x1 = (6 / 17, - (12 / 17))).
  { destruct x0 as [a a'], x1 as [b b']. destruct Hc as [-> | ->]; unfold Cadd, Cmul, Cconj in E3, E4; cbn in E3, E4; injection E3 as E31 E32; injection E4 as E41 E42; apply (f_equal2 pair); nra. }
  eexists. split; [|split].
  - eapply (@comp_step_eq solve_L spd csqrt d22 y22 _ 1%nat [(0, 3 / 5)] [[(1, 0); (0, 0)]; [(0, 3 / 5); (q, 0)]] [x0; x1]).
    + cbn [com_r]. assert (E : cd_trans d22 [(0, 0); (3 / 5, 0)] = [(0, 0); (12 / 25, 0)]).
      { cbn. unfold Cadd, Cmul, Cconj. cbn. repeat (apply (f_equal2 cons); [apply (f_equal2 pair); lra|]). reflexivity. }
      rewrite E. unfold cabs_max_idx, argmax. cbn [map argmax_from]. rewrite ltb_cabs_t by (cbn; lra). reflexivity.
    + cbn. unfold Cadd, Cmul, Cconj. cbn. apply (f_equal2 cons); [|reflexivity]. apply (f_equal2 pair); lra.
    + cbn [com_L]. unfold cgram_chol_update. rewrite H1.
      replace (Csub (1, 0) (sumsq [(0, 3 / 5)])) with ((34 / 25, 0) : Cx) by (unfold sumsq; cbn; unfold Csub, Cadd, Cmul; cbn; apply (f_equal2 pair); lra). rewrite H2. reflexivity.
    + cbn [com_I]. rewrite Hb. exact E1.
    + reflexivity.
  - reflexivity.
  - cbn [com_r com_I app]. subst x1. unfold csynth, y22. cbn. unfold Csub, Cadd, Cmul. cbn. destruct x0 as [a a']. apply (f_equal2 pair); cbn; lra.
Qed.

(** *** MP *)
Lemma cmp_half rtol : 0 <= rtol < 1 ->
  cmp (cstd 2) [(1, 0); (0, 1 / 2)] 2 rtol 3 = Done (CMPState [1; 0] [(0, 0); (0, 0)] (3 / 4, 0) 2).
Proof.
  intros Hr. assert (Sy : sumsq [(1, 0); (0, 1 / 2)] = (3 / 4, 0)).
  { unfold sumsq. cbn. unfold Cadd, Cmul. cbn. apply (f_equal2 pair); lra. }
  assert (C : forall x r it, cmp_cond [(1, 0); (0, 1 / 2)] 2 rtol (CMPState x r (3 / 4, 0) it) = (it <? 2)%nat).
  { intros. unfold cmp_cond. rewrite Sy. cbn [cm_rn cm_it]. unfold Cgtb, Cmul. cbn [fst snd]. destruct (Rltb_spec (3 / 4 * rtol ^ 2 - 0 * 0) (3 / 4)) as [L|L]; [reflexivity|exfalso; apply L; nra]. }
  unfold cmp, cmp_init. rewrite Sy. cbn [cstd cd_n repeat]. cbn [while_]. rewrite C. cbn [Nat.ltb Nat.leb].
  assert (B1 : cmp_body (cstd 2) [(1, 0); (0, 1 / 2)] (CMPState [0; 0] [(1, 0); (0, 1 / 2)] (3 / 4, 0) 0) = Some (CMPState [1; 0] [(0, 0); (0, 1 / 2)] (3 / 4, 0) 1)).
  { unfold cmp_body. cbn [cm_r cm_x cm_it cstd cd_trans]. unfold cabs_max_idx, argmax. cbn [map argmax_from]. rewrite ltb_cabs_f by (cbn; lra). cbn [nth]. rewrite Sy. f_equal. f_equal.
    - cbn. repeat (apply (f_equal2 cons); [lra|]). reflexivity.
    - cbn. unfold Csub, Cmul. cbn. repeat (apply (f_equal2 cons); [apply (f_equal2 pair); lra|]). reflexivity. }
  assert (B2 : cmp_body (cstd 2) [(1, 0); (0, 1 / 2)] (CMPState [1; 0] [(0, 0); (0, 1 / 2)] (3 / 4, 0) 1) = Some (CMPState [1; 0] [(0, 0); (0, 0)] (3 / 4, 0) 2)).
  { unfold cmp_body. cbn [cm_r cm_x cm_it cstd cd_trans]. unfold cabs_max_idx, argmax. cbn [map argmax_from]. rewrite ltb_cabs_t by (cbn; lra). cbn [nth]. rewrite Sy. f_equal. f_equal.
    - cbn. repeat (apply (f_equal2 cons); [lra|]). reflexivity.
    - cbn. unfold Csub, Cmul. cbn. repeat (apply (f_equal2 cons); [apply (f_equal2 pair); lra|]). reflexivity. }
  rewrite B1, C. cbn [Nat.ltb Nat.leb]. rewrite B2, C. reflexivity.
Qed.
Lemma cmp_idle rtol max_iters fuel : 0 <= rtol < 1 ->
  cmp (cstd 1) [(0, 1)] max_iters rtol (S fuel) = Done (CMPState [0] [(0, 1)] (-1, 0) 0).
Proof.
  intros Hr. assert (Sy : sumsq [(0, 1)] = (-1, 0)) by (unfold sumsq; cbn; unfold Cadd, Cmul; cbn; apply (f_equal2 pair); lra).
  unfold cmp, cmp_init. rewrite Sy. cbn [while_ cstd cd_n repeat].
  assert (C : cmp_cond [(0, 1)] max_iters rtol (CMPState [0] [(0, 1)] (-1, 0) 0) = false).
  { unfold cmp_cond. rewrite Sy. cbn [cm_rn cm_it]. unfold Cgtb, Cmul. cbn [fst snd]. destruct (Rltb_spec (-1 * rtol ^ 2 - 0 * 0) (-1)) as [L|L]; [nra|].
    destruct (Reqb_spec (-1) (-1 * rtol ^ 2 - 0 * 0)) as [E|E]; [nra|]. reflexivity. }
  rewrite C. reflexivity.
Qed.
Ltac vstd := split; [intros; apply tab_length|split; [auto|]].
Ltac vent := cbn; unfold Cadd, Cmul, Cconj; cbn; repeat match goal with z : Cx |- _ => destruct z | z : car Cs |- _ => change Cx in z; destruct z end; cbn; apply (f_equal2 pair); ring.
Lemma cstd1_valid : cvalid_dict 1 (cstd 1).
Proof. vstd. intros [|a [|b r]] [|i] Lr Hi; try discriminate; cbn in Hi; try lia; vent. Qed.
Lemma cstd2_valid : cvalid_dict 2 (cstd 2).
Proof. vstd. intros [|a [|b [|c r]]] [|[|i]] Lr Hi; try discriminate; cbn in Hi; try lia; vent. Qed.
Lemma cstd4_valid : cvalid_dict 4 (cstd 4).
Proof. vstd. intros [|a [|b [|c [|d [|e r]]]]] [|[|[|[|i]]]] Lr Hi; try discriminate; cbn in Hi; try lia; vent. Qed.
