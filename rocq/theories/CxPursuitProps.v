(** C97: greedy pursuits on complex data. *)
From Coq Require Import List Arith Bool Lia Reals Lra Permutation.
From Verif Require Import Scalar Vec RVec Loop OptModel SelModel PursuitModel PursuitProofs4 PursuitLemmas2 CxSpec CxSpglModel CxPursuitModel CxPursuitSpec CxPursuitProofs CxPursuitProofs2 CxPursuitProofs3.
Import ListNotations.
Local Open Scope R_scope.

(** the K selected positions hold K entries of largest modulus *)
Theorem C97_selection h K : (K <= length h)%nat -> ctop_selection h K (clargest_indices h K).
Proof. apply cli_top. Qed.
Print Assumptions C97_selection.

(** CoSaMP: whatever it returns is consistent, and it stops for one of three reasons *)
Theorem C97_cosamp lstsq m D y K max_iters rtol fuel s :
  cleast_squares_solver lstsq -> cvalid_dict m D -> (K <= cd_n D)%nat -> length y = m ->
  ccosamp lstsq D y K max_iters rtol fuel = Done s ->
  cconsistent m D y K s /\ (1 <= cp_it s <= Nat.max 1 max_iters)%nat /\
  (cnsq (cp_r s) <= rtol ^ 2 * cnsq y \/ (max_iters <= cp_it s)%nat \/ (Nat.min (3 * K) 20 <= cp_it s)%nat /\ cp_I s = cp_Iprev s).
Proof.
  intros HL V HK Ly H.
  destruct (@crun_done m D K HK (fun y s => cconsistent m D y K s) (fun yn => ccosamp_init lstsq D yn K) (fun yn => ccosamp_body lstsq D yn K) max_iters rtol fuel) with (y := y) (s := s) as (R1 & R2 & R3); auto.
  - intros y' L'. split; [now apply ccosamp_init_ok|reflexivity].
  - intros y' s0 s1 L' C B. destruct (@ccosamp_body_ok m D K V HK y' L' lstsq HL s0 s1 C B) as (B1 & B2 & _). auto.
  - intros y' s0 c L' Hc C. now apply cscale_ok.
  - split; [exact R1|]. split; [exact R2|]. destruct R1 as (_ & _ & _ & _ & C5). rewrite <- C5. exact R3.
Qed.
Print Assumptions C97_cosamp.

(** subspace pursuit: in addition no combination of the returned atoms is nearer to y, and the residual is
    orthogonal to each of them *)
Theorem C97_sp lstsq m D y K max_iters rtol fuel s :
  cleast_squares_solver lstsq -> cvalid_dict m D -> (K <= cd_n D)%nat -> length y = m ->
  csp lstsq D y K max_iters rtol fuel = Done s ->
  cconsistent m D y K s /\ (1 <= cp_it s <= Nat.max 1 max_iters)%nat /\
  (cnsq (cp_r s) <= rtol ^ 2 * cnsq y \/ (max_iters <= cp_it s)%nat \/ (Nat.min (3 * K) 20 <= cp_it s)%nat /\ cp_I s = cp_Iprev s) /\
  (forall z, length z = K -> cnsq (cp_r s) <= cnsq (vsub y (ccombine_on m D (cp_I s) z))) /\
  (forall i, In i (cp_I s) -> inner (cd_atom D i) (cp_r s) = ((0, 0) : Cx)).
Proof.
  intros HL V HK Ly H.
  destruct (@crun_done m D K HK (fun y s => cconsistent m D y K s /\ forall z, length z = K -> cnsq (cp_r s) <= cnsq (vsub y (ccombine_on m D (cp_I s) z)))
    (fun yn => csp_init lstsq D yn K) (fun yn => csp_body lstsq D yn K) max_iters rtol fuel) with (y := y) (s := s) as ((R0 & R1) & R2 & R3); auto.
  - intros y' L'. split; [now apply csp_init_ok|reflexivity].
  - intros y' s0 s1 L' [C _] B. destruct (@csp_body_ok m D K V HK y' L' lstsq HL s0 s1 C B) as (B1 & B2 & _). auto.
  - intros y' s0 c L' Hc [C B]. split; [now apply cscale_ok|]. now apply (@cscale_best m D K y').
  - split; [exact R0|]. split; [exact R2|]. split; [|split; [exact R1|]].
    + destruct R0 as (_ & _ & _ & _ & C5). rewrite <- C5. exact R3.
    + now apply (@cbest_orth m D K y).
Qed.
Print Assumptions C97_sp.

(** both terminate on every signal that is not zero *)
Theorem C97_terminates lstsq m D y K max_iters rtol fuel :
  cleast_squares_solver lstsq -> cvalid_dict m D -> (K <= cd_n D)%nat -> length y = m -> y <> repeat (0, 0) m -> (max_iters <= fuel)%nat ->
  (exists s, ccosamp lstsq D y K max_iters rtol fuel = Done s) /\ (exists s, csp lstsq D y K max_iters rtol fuel = Done s).
Proof.
  intros HL V HK Ly Hy HF. split.
  - apply (@crun_total m D K HK (fun y s => cconsistent m D y K s) (fun yn => ccosamp_init lstsq D yn K) (fun yn => ccosamp_body lstsq D yn K)); auto.
    + intros y' L'. split; [now apply ccosamp_init_ok|reflexivity].
    + intros y' s0 s1 L' C B. destruct (@ccosamp_body_ok m D K V HK y' L' lstsq HL s0 s1 C B) as (B1 & B2 & _). auto.
    + discriminate.
  - apply (@crun_total m D K HK (fun y s => cconsistent m D y K s) (fun yn => csp_init lstsq D yn K) (fun yn => csp_body lstsq D yn K)); auto.
    + intros y' L'. split; [now apply csp_init_ok|reflexivity].
    + intros y' s0 s1 L' C B. destruct (@csp_body_ok m D K V HK y' L' lstsq HL s0 s1 C B) as ((B1 & _) & B2 & _). auto.
    + discriminate.
Qed.
Print Assumptions C97_terminates.

(** the first support of CoSaMP and SP has no repetitions; an iteration selects an atom twice only when all atoms
    outside the support are orthogonal to the residual, but for at most 2K (SP: K) of them *)
Theorem C97_distinct_partial lstsq m D y K :
  cleast_squares_solver lstsq -> cvalid_dict m D -> (K <= cd_n D)%nat -> length y = m ->
  NoDup (cp_I (csp_init lstsq D y K)) /\ NoDup (cp_I (ccosamp_init lstsq D y K)) /\
  (forall s s', cconsistent m D y K s -> NoDup (cp_I s) -> csp_body lstsq D y K s = Some s' ->
     NoDup (cp_I s') \/ exists T, (length T <= K)%nat /\ forall j, (j < cd_n D)%nat -> ~ In j (cp_I s) -> ~ In j T -> inner (cd_atom D j) (cp_r s) = ((0, 0) : Cx)) /\
  (forall s s', (2 * K <= cd_n D)%nat -> cconsistent m D y K s -> NoDup (cp_I s) -> ccosamp_body lstsq D y K s = Some s' ->
     NoDup (cp_I s') \/ exists T, (length T <= 2 * K)%nat /\ forall j, (j < cd_n D)%nat -> ~ In j (cp_I s) -> ~ In j T -> inner (cd_atom D j) (cp_r s) = ((0, 0) : Cx)).
Proof.
  intros HL V HK Ly. split; [apply cli_nodup|]. split; [|split].
  - unfold ccosamp_init, cps_make. cbn [cp_I]. apply Permutation_NoDup with (1 := Permutation_sym (nsort_perm _)). apply pick_nodup; [apply cli_nodup|apply cli_nodup|].
    intros a Ha. apply cli_lt in Ha. erewrite <- (@cls_len m D V y Ly lstsq HL); [exact Ha|]. intros i Hi. exact (@ch_in m D V y _ Ly i Hi).
  - intros s s' C ND B. unfold csp_body in B. injection B as <-. exact (@cmerge_nodup m D y K V HK Ly lstsq HL s K HK C ND).
  - intros s s' H2 C ND B. unfold ccosamp_body in B. injection B as <-. exact (@cmerge_nodup m D y K V HK Ly lstsq HL s (2 * K) H2 C ND).
Qed.
Print Assumptions C97_distinct_partial.

(** which data the compiled loops of CoSaMP and SP accept: the operator's flag must say real exactly when both
    the operator and the data are real *)
Theorem C97_accepts flag ta ty :
  sp_accepts flag ta ty <-> (flag = true <-> ta = RealArr /\ ty = RealArr).
Proof. destruct flag, ta, ty; cbv; intuition (try discriminate; try congruence). Qed.
Print Assumptions C97_accepts.

(** IHT and HTP accept no complex data at all *)
Theorem C97_iht_refuted ta ty : iht_accepts ta ty <-> ta = RealArr /\ ty = RealArr.
Proof. destruct ta, ty; cbv; intuition (try discriminate; try congruence). Qed.
Print Assumptions C97_iht_refuted.

(** OMP with the standard basis of C^4 as dictionary, y = (5, 4, 2, 2i) and K = 4: it stops after two atoms and
    reports residual energy 0, although the residual it returns has energy 8 *)
Theorem C97_omp_stop_refuted solve_L spd csqrt rtol fuel :
  solve_L [[(1, 0)]] [(0, 0)] = [(0, 0)] -> csqrt (1, 0) = (1, 0) -> (forall b, length b = 2%nat -> spd [[(1, 0); (0, 0)]; [(0, 0); (1, 0)]] b = b) ->
  0 <= rtol < 1 -> (2 <= fuel)%nat ->
  cvalid_dict 4 (cstd 4) /\
  exists s, comp solve_L spd csqrt (cstd 4) [(5, 0); (4, 0); (2, 0); (0, 2)] 4 rtol fuel = Done s /\
    com_it s = 2%nat /\ com_rn s = (0, 0) /\ cnsq (com_r s) = 8.
Proof.
  intros H1 H2 H3 Hr Hf. split; [exact cstd4_valid|]. destruct (@comp_stops4 _ _ _ rtol fuel H1 H2 H3 Hr Hf) as (s & E & E1 & _ & E2 & E3).
  exists s. split; [exact E|]. split; [exact E1|]. split; [exact E3|]. rewrite E2. unfold cnsq. cbn. unfold Cnsq. cbn. lra.
Qed.
Print Assumptions C97_omp_stop_refuted.

(** OMP with two independent unit atoms of C^2: after both have been chosen the residual is not zero, whether the
    triangular solver uses the transpose or the conjugate transpose of the factor *)
Theorem C97_omp_factor_refuted solve_L spd csqrt c :
  c = (fun z => z) \/ c = Cconj ->
  solve_L [[(1, 0)]] [(0, 3 / 5)] = [(0, 3 / 5)] -> csqrt (34 / 25, 0) = (sqrt (34 / 25), 0) ->
  (forall w s b, length b = 2%nat -> s <> (0, 0) -> solves22 c w s b (spd [[(1, 0); (0, 0)]; [w; s]] b)) ->
  cvalid_dict 2 d22 /\ (forall y, length y = 2%nat -> exists x, length x = 2%nat /\ ccombine_on 2 d22 [0%nat; 1%nat] x = y) /\
  exists s, comp_step solve_L spd csqrt d22 y22 (comp_init d22 y22) = Some s /\ com_I s = [0%nat; 1%nat] /\ com_r s <> [(0, 0); (0, 0)].
Proof.
  intros Hc H1 H2 H3. split; [exact d22_valid|]. split.
  - intros [|[a a'] [|[b b'] [|e y]]] L; try discriminate. exists [(a + 3 / 4 * b', a' - 3 / 4 * b); (5 / 4 * b, 5 / 4 * b')]. split; [reflexivity|].
    unfold ccombine_on. cbn. unfold Cadd, Cmul. cbn. repeat (apply (f_equal2 cons); [apply (f_equal2 pair); lra|]). reflexivity.
  - destruct (@omp_step22 solve_L spd csqrt c Hc H1 H2 H3) as (s & E & E1 & E2). exists s. repeat split; auto. intros Q. rewrite Q in E2. cbn in E2. injection E2 as E2 _. lra.
Qed.
Print Assumptions C97_omp_factor_refuted.

(** MP: the returned solution does not have the returned residual, because the imaginary parts of the coefficients
    are dropped; and a purely imaginary signal ends the loop before the first iteration *)
Theorem C97_mp_refuted rtol : 0 <= rtol < 1 ->
  (cvalid_dict 2 (cstd 2) /\ exists s, cmp (cstd 2) [(1, 0); (0, 1 / 2)] 2 rtol 3 = Done s /\ cm_r s = [(0, 0); (0, 0)] /\
     vsub ([(1, 0); (0, 1 / 2)] : cvec) (ccombine_on 2 (cstd 2) [0%nat; 1%nat] (map (fun a => (a, 0)) (cm_x s))) = [(0, 0); (0, 1 / 2)]) /\
  (forall max_iters fuel, exists s, cmp (cstd 1) [(0, 1)] max_iters rtol (S fuel) = Done s /\ cm_it s = 0%nat /\ cm_r s = [(0, 1)]).
Proof.
  intros Hr. split.
  - split; [exact cstd2_valid|]. eexists. split; [exact (cmp_half Hr)|]. split; [reflexivity|]. cbn [cm_x map]. unfold ccombine_on. cbn. unfold Csub, Cadd, Cmul. cbn.
    repeat (apply (f_equal2 cons); [apply (f_equal2 pair); lra|]). reflexivity.
  - intros. eexists. split; [exact (cmp_idle max_iters fuel Hr)|]. split; reflexivity.
Qed.
Print Assumptions C97_mp_refuted.

(** exact least squares solvers exist, and the hypotheses of the theorems hold for a dictionary of two atoms that
    are not orthogonal *)
Example C97_example :
  cleast_squares_solver clstsq /\ cvalid_dict 2 d22 /\ length y22 = 2%nat /\ y22 <> repeat (0, 0) 2 /\
  inner (cd_atom d22 0) (cd_atom d22 1) = ((0, 3 / 5) : Cx) /\
  (exists s, csp clstsq d22 y22 1 10 (1 / 1000) 10 = Done s) /\ (exists s, ccosamp clstsq d22 y22 1 10 (1 / 1000) 10 = Done s).
Proof.
  assert (N : y22 <> repeat (0, 0) 2) by (intros [= E]; lra).
  split; [exact clstsq_ok|]. split; [exact d22_valid|]. split; [reflexivity|]. split; [exact N|]. split.
  - cbn. unfold Cadd, Cmul, Cconj. cbn. apply (f_equal2 pair); lra.
  - destruct (C97_terminates clstsq 2 d22 y22 1 10 (1 / 1000) 10 clstsq_ok d22_valid) as [T1 T2]; cbn; auto.
Qed.
(** the solvers assumed in the statements about OMP exist *)
Example C97_solvers_exist : exists solve_L spd csqrt,
  solve_L [[(1, 0)]] [(0, 0)] = [(0, 0)] /\ solve_L [[(1, 0)]] [(0, 3 / 5)] = [(0, 3 / 5)] /\
  csqrt (1, 0) = (1, 0) /\ csqrt (34 / 25, 0) = (sqrt (34 / 25), 0) /\
  (forall b, length b = 2%nat -> spd [[(1, 0); (0, 0)]; [(0, 0); (1, 0)]] b = b) /\
  (forall w s b, length b = 2%nat -> s <> (0, 0) -> solves22 (fun z => z) w s b (spd [[(1, 0); (0, 0)]; [w; s]] b)).
Proof.
  exists (fun (_ : list cvec) (b : cvec) => b).
  exists (fun (L : list cvec) (b : cvec) => let w := nth 0 (nth 1 L []) (0, 0) in let s := nth 1 (nth 1 L []) (0, 0) in
    let x1 := Cdiv (Csub (nth 1 b (0, 0)) (Cmul w (nth 0 b (0, 0)))) (Cmul s s) in [Csub (nth 0 b (0, 0)) (Cmul w x1); x1]).
  exists (fun z : Cx => (sqrt (fst z), 0)). repeat split.
  - cbn. now rewrite sqrt_1.
  - intros [|a [|b [|e r]]] L; try discriminate. cbn. destruct a as [a a'], b as [b b']. unfold Csub, Cdiv, Cmul, Cinv. cbn.
    replace (Cnsq (1 * 1 - 0 * 0, 1 * 0 + 0 * 1)) with 1 by (unfold Cnsq; cbn; ring).
    repeat (apply (f_equal2 cons); [apply (f_equal2 pair); field|]). reflexivity.
  - intros w s [|a [|b [|e r]]] L Hs; try discriminate. cbn [nth].
    eexists _, _, a, b. split; [reflexivity|]. split; [reflexivity|].
    assert (P : fst s * fst s + snd s * snd s <> 0).
    { intros Q. apply Hs. destruct s as [s s']. cbn in Q. assert (s = 0) by nra. assert (s' = 0) by nra. now subst. }
    assert (F : Cmul (Cmul s s) (Cinv (Cmul s s)) = (1, 0)).
    { destruct s as [s s']. cbn in P. unfold Cmul, Cinv. cbn.
      assert (N : Cnsq (s * s - s' * s', s * s' + s' * s) <> 0).
      { unfold Cnsq. cbn. intros Q. apply P. (destruct (Rmult_integral (s * s + s' * s') (s * s + s' * s')); [rewrite <- Q; ring| |]; assumption). }
      remember (Cnsq (s * s - s' * s', s * s' + s' * s)) as nn eqn:En. unfold Cnsq in En. cbn in En.
      apply (f_equal2 pair); [|field; exact N]. apply Rmult_eq_reg_r with nn; [|exact N]. rewrite Rmult_1_l.
      transitivity ((s * s - s' * s') * (s * s - s' * s') + (s * s' + s' * s) * (s * s' + s' * s)); [field; exact N|now symmetry]. }
    unfold Cdiv. set (v := Cinv (Cmul s s)) in *. split.
    + destruct w, v, a, b. unfold Cadd, Csub, Cmul. cbn. apply (f_equal2 pair); ring.
    + set (u := Csub b (Cmul w a)). assert (G : Cmul (Cmul s s) (Cmul u v) = u).
      { replace (Cmul (Cmul s s) (Cmul u v)) with (Cmul (Cmul (Cmul s s) v) u) by (destruct s, u, v; unfold Cmul; cbn; apply (f_equal2 pair); ring).
        rewrite F. destruct u. unfold Cmul. cbn. apply (f_equal2 pair); ring. }
      transitivity (Cadd (Cmul w a) (Cmul (Cmul s s) (Cmul u v))).
      * destruct w, s, u, v, a. unfold Cadd, Csub, Cmul. cbn. apply (f_equal2 pair); ring.
      * rewrite G. unfold u. destruct a, b, w. unfold Cadd, Csub, Cmul. cbn. apply (f_equal2 pair); ring.
Qed.
