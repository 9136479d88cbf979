(** C105: greedy pursuits for matrices on complex data. *)
From Coq Require Import List Arith Bool Lia Reals Lra.
From Verif Require Import Scalar Vec RVec Loop OptModel SelModel PursuitModel CxSpec CxSpglModel CxPursuitModel CxPursuitSpec CxPursuitProofs CxPursuitProofs2 CxPursuitProofs3 CxMatPursuitModel CxMatPursuitSpec CxMatPursuitProofs CxMatPursuitProofs2 CxMatPursuitProofs3 CxMatPursuitProofs4.
Import ListNotations.
Local Open Scope R_scope.

(** subspace pursuit: whatever it returns has K valid columns, the residual of exactly the returned coefficients,
    no combination of the returned columns is nearer to y, the residual is orthogonal to each of them, and it stops
    after max_iters iterations or because r.T @ r is not larger than rtol^2 y.T @ y in the order of jax.numpy
    (real parts first). Missing: that this last test says something about the size of the residual *)
Theorem C105_sp_partial lstsq m Phi y K max_iters rtol fuel s :
  cleast_squares_solver lstsq -> has_rows m Phi -> (K <= length Phi)%nat -> length y = m ->
  msp lstsq Phi y K max_iters rtol fuel = Done s ->
  mconsistent m Phi y K s /\ best_on_support m Phi y K s /\
  (forall i, In i (ms_I s) -> inner (nth i Phi []) (ms_r s) = ((0, 0) : Cx)) /\
  (1 <= ms_it s <= Nat.max 1 max_iters)%nat /\
  ((max_iters <= ms_it s)%nat \/
   let bound := Cmul (fold_right (fun a t => Cadd (Cmul a a) t) (0, 0) y) (rtol ^ 2, 0) in
   fst (ms_rn s) < fst bound \/ fst (ms_rn s) = fst bound /\ snd (ms_rn s) <= snd bound).
Proof.
  intros HL HP HK Ly H. destruct (@msp_done m Phi K y HP HK Ly lstsq HL max_iters rtol fuel s H) as (C & B & I & St).
  split; [exact C|]. split; [exact B|]. split; [exact (@mbest_orth m Phi K y HP Ly s C B)|]. split; [exact I|].
  destruct St as [St|St]; [now left|right]. cbv zeta. rewrite <- sumsq_fold. now apply Cgtb_false.
Qed.
Print Assumptions C105_sp_partial.

(** it terminates on every signal, zero included *)
Theorem C105_sp_terminates lstsq m Phi y K max_iters rtol fuel :
  cleast_squares_solver lstsq -> has_rows m Phi -> (K <= length Phi)%nat -> length y = m -> (max_iters <= fuel)%nat ->
  exists s, msp lstsq Phi y K max_iters rtol fuel = Done s.
Proof. intros HL HP HK Ly HF. exact (@msp_total m Phi K y HP HK Ly lstsq HL max_iters rtol fuel HF). Qed.
Print Assumptions C105_sp_terminates.

(** the first support has no repetitions; an iteration selects a column a twice only when a^T r = 0 for all columns
    outside the support but at most K. Missing: repetitions in the other case (as for real data, C35) *)
Theorem C105_sp_distinct_partial lstsq m Phi y K :
  cleast_squares_solver lstsq -> has_rows m Phi -> (K <= length Phi)%nat -> length y = m ->
  NoDup (ms_I (msp_init lstsq Phi y K)) /\
  forall s s', mconsistent m Phi y K s -> NoDup (ms_I s) -> msp_body lstsq Phi y K s = Some s' ->
    NoDup (ms_I s') \/ exists T, (length T <= K)%nat /\ forall j, (j < length Phi)%nat -> ~ In j (ms_I s) -> ~ In j T -> dotu (nth j Phi []) (ms_r s) = ((0, 0) : Cx).
Proof. intros HL HP HK Ly. split; [apply cli_nodup|]. exact (@msp_nodup m Phi y K HP HK Ly lstsq HL). Qed.
Print Assumptions C105_sp_distinct_partial.

(** with a real matrix and complex data the first support consists of K columns with the largest |<a, y>| *)
Theorem C105_sp_selection_partial lstsq m Phi y K : has_rows m Phi -> real_entries Phi -> (K <= length Phi)%nat ->
  ctop_selection (map (fun a => inner a y) Phi) K (ms_I (msp_init lstsq Phi y K)).
Proof.
  intros HP HR HK. replace (map (fun a : cvec => inner a y) Phi) with (mcorr Phi y).
  - apply cli_top. now rewrite mcorr_len.
  - unfold mcorr. apply map_ext_in. intros a Ha. apply dotu_real. now apply HR.
Qed.
Print Assumptions C105_sp_selection_partial.

(** two unit columns of C^2 and a signal equal to the first: SP with K = 1 returns the second, a residual of energy
    16/25 and the number -16/25 for it, after one iteration, whatever the limit and the tolerance *)
Theorem C105_sp_refuted lstsq max_iters rtol fuel : cleast_squares_solver lstsq -> 0 <= rtol <= 1 ->
  let Phi := [[(3 / 5, 0); (0, 4 / 5)]; [(1, 0); (0, 0)]] : list cvec in
  has_rows 2 Phi /\ (forall a, In a Phi -> cnsq a = 1) /\
  exists s, msp lstsq Phi (nth 0 Phi []) 1 max_iters rtol (S fuel) = Done s /\
    ms_I s = [1%nat] /\ cnsq (ms_r s) = 16 / 25 /\ ms_rn s = (- (16 / 25), 0) /\ ms_it s = 1%nat.
Proof.
  intros H Hr Phi. split; [exact sp_rows|]. split; [intros a [<-|[<-|[]]]; cbn; unfold Cnsq; cbn; lra|].
  exists (msp_init lstsq sp_phi sp_y 1). split; [exact (sp_stop lstsq max_iters rtol fuel H Hr)|]. split; [apply sp_first|].
  split; [rewrite (sp_res lstsq H); cbn; unfold Cnsq; cbn; lra|]. split; [|reflexivity].
  change (ms_rn (msp_init lstsq sp_phi sp_y 1)) with (sumsq (ms_r (msp_init lstsq sp_phi sp_y 1))). rewrite (sp_res lstsq H). unfold sumsq. cbn. unfold Cadd, Cmul. cbn. apply (f_equal2 pair); lra.
Qed.
Print Assumptions C105_sp_refuted.

(** OMP: K valid columns, the residual of exactly the returned coefficients; it fails for K < 2. Missing: that the
    coefficients solve the least squares problem (next theorem) *)
Theorem C105_omp_partial solve_L spd csqrt m Phi y K :
  has_rows m Phi -> Phi <> [] -> length y = m -> (forall L b, length (spd L b) = length b) ->
  ((K < 2)%nat -> momp solve_L spd csqrt Phi y K = Fail) /\
  ((2 <= K)%nat -> exists s, momp solve_L spd csqrt Phi y K = Done s /\ mconsistent m Phi y K s /\ ms_it s = K).
Proof.
  intros HP HN Ly Hs. unfold momp. split; intros HK.
  - destruct (Nat.ltb_spec K 2); [reflexivity|lia].
  - destruct (Nat.ltb_spec K 2); [lia|]. eexists. split; [reflexivity|].
    destruct (@momp_ok m Phi y solve_L spd csqrt HP HN Ly Hs (K - 1)) as [C I]. replace (S (K - 1)) with K in C, I by lia. split; [exact C|exact I].
Qed.
Print Assumptions C105_omp_partial.

(** for a real matrix with unit columns, complex data and solvers that are exact on the factors of the run (which
    they can be only as long as the pivots do not vanish), the residual of OMP is orthogonal to the selected columns
    and no combination of them is nearer to y *)
Theorem C105_omp_real_partial m Phi y K solve_L spd csqrt :
  has_rows m Phi -> real_entries Phi -> (forall a, In a Phi -> cnsq a = 1) -> Phi <> [] -> length y = m ->
  (forall z, Cmul (csqrt z) (csqrt z) = z) -> (forall L b, length (spd L b) = length b) ->
  let run k := mo_L (Nat.iter k (momp_step solve_L spd csqrt Phi y) (momp_init Phi y)) in
  (forall j, (j < K - 1)%nat -> solves_lower solve_L (run j)) -> solves_gram spd (run (K - 1)%nat) ->
  (2 <= K)%nat -> exists s, momp solve_L spd csqrt Phi y K = Done s /\
    (forall i, In i (ms_I s) -> inner (nth i Phi []) (ms_r s) = ((0, 0) : Cx)) /\ best_on_support m Phi y K s.
Proof. intros HP HR HU HN Ly Hq H2 run H1 H3 HK. exact (@omp_real m Phi y K solve_L spd csqrt HP HR HU HN Ly Hq H1 H2 H3 HK). Qed.
Print Assumptions C105_omp_real_partial.
(** its hypotheses are met by the standard basis of C^2 and a complex signal *)
Example C105_omp_real_ex : exists Phi y solve_L spd csqrt,
  has_rows 2 Phi /\ real_entries Phi /\ (forall a, In a Phi -> cnsq a = 1) /\ y = [(1, 1); (0, 3)] /\ (forall z, Cmul (csqrt z) (csqrt z) = z) /\
  (forall L b, length (spd L b) = length b) /\
  (forall j, (j < 2 - 1)%nat -> solves_lower solve_L (mo_L (Nat.iter j (momp_step solve_L spd csqrt Phi y) (momp_init Phi y)))) /\
  solves_gram spd (mo_L (Nat.iter (2 - 1) (momp_step solve_L spd csqrt Phi y) (momp_init Phi y))).
Proof.
  exists e2, y2, same, same, csqrt0. split; [intros a [<-|[<-|[]]]; reflexivity|]. split; [intros a [<-|[<-|[]]]; repeat constructor|].
  split; [intros a [<-|[<-|[]]]; cbn; unfold Cnsq; cbn; lra|]. split; [reflexivity|]. split; [exact csqrt0_ok|]. split; [reflexivity|]. split.
  - intros j Hj. assert (j = 0%nat) by lia. subst j. exact same_lower.
  - change (2 - 1)%nat with 1%nat. rewrite omp_ex_factor. exact same_gram.
Qed.

(** an orthonormal basis a, b of C^2 and y = a + 3 b: OMP with K = 2 selects both, returns 3 and -1, a residual with
    energy 4 and the number -4 for it *)
Theorem C105_omp_refuted solve_L spd csqrt :
  solve_L [[(1, 0)]] [(0, 0)] = [(0, 0)] -> csqrt (1, 0) = (1, 0) -> (forall b, length b = 2%nat -> spd [[(1, 0); (0, 0)]; [(0, 0); (1, 0)]] b = b) ->
  let Phi := [[(0, 1); (0, 0)]; [(0, 0); (1, 0)]] : list cvec in
  let y := [(0, 1); (3, 0)] : cvec in
  combine_columns 2 Phi [1%nat; 0%nat] [(3, 0); (1, 0)] = y /\
  exists s, momp solve_L spd csqrt Phi y 2 = Done s /\ ms_I s = [1%nat; 0%nat] /\ ms_x s = [(3, 0); (-1, 0)] /\ cnsq (ms_r s) = 4 /\ ms_rn s = (-4, 0).
Proof.
  intros H1 H2 H3 Phi y. split; [unfold combine_columns, Phi, y; cbn; unfold Cadd, Cmul; cbn; cvec_eq|].
  eexists. split; [exact (omp_run solve_L spd csqrt H1 H2 H3)|]. cbn [ms_I ms_x ms_r ms_rn]. repeat split. cbn. unfold Cnsq. cbn. lra.
Qed.
Print Assumptions C105_omp_refuted.

(** MP with the single column (i) and the signal (1): the residual doubles in every iteration and the solution
    stays 0 *)
Theorem C105_mp_refuted max_iters rtol fuel : 0 <= rtol < 1 -> (max_iters < fuel)%nat ->
  exists s, mmp [[(0, 1)]] [(1, 0)] max_iters rtol fuel = Done s /\
    cm_x s = [0] /\ cm_r s = [(2 ^ max_iters, 0)] /\ cm_rn s = (1, 0) /\ cm_it s = max_iters.
Proof. intros Hr HF. eexists. split; [exact (mmp_run max_iters rtol fuel Hr HF)|]. repeat split. Qed.
Print Assumptions C105_mp_refuted.

(** which element types the compiled loops accept: SP all, MP all but a complex matrix with a real signal *)
Theorem C105_accepts ta ty : msp_accepts ta ty /\ (mmp_accepts ta ty <-> ta = RealArr \/ ty = ComplexArr).
Proof. split; [reflexivity|]. destruct ta, ty; cbv; intuition (try discriminate; try congruence). Qed.
Print Assumptions C105_accepts.

(** CoSaMP, IHT and HTP accept no complex data at all *)
Theorem C105_accepts_refuted ta ty :
  (mcosamp_accepts ta ty <-> ta = RealArr /\ ty = RealArr) /\ (miht_accepts ta ty <-> ta = RealArr /\ ty = RealArr).
Proof. destruct ta, ty; cbv; intuition (try discriminate; try congruence). Qed.
Print Assumptions C105_accepts_refuted.

(** the hypotheses can be met: an exact least squares solver, a real matrix with two columns that are not
    orthogonal, complex data *)
Example C105_nonvacuous :
  let Phi := [[(1, 0); (0, 0)]; [(3 / 5, 0); (4 / 5, 0)]] : list cvec in
  let y := [(1, 1); (0, 2)] : cvec in
  cleast_squares_solver clstsq /\ has_rows 2 Phi /\ real_entries Phi /\ length y = 2%nat /\
  exists s, msp clstsq Phi y 1 5 (1 / 1000) 5 = Done s /\ mconsistent 2 Phi y 1 s.
Proof.
  intros Phi y. assert (H : has_rows 2 Phi) by (intros a [<-|[<-|[]]]; reflexivity).
  split; [exact clstsq_ok|]. split; [exact H|]. split; [intros a [<-|[<-|[]]]; repeat constructor|]. split; [reflexivity|].
  assert (HK : (1 <= length Phi)%nat) by (cbn; lia).
  destruct (@C105_sp_terminates clstsq 2 Phi y 1 5 (1 / 1000) 5 clstsq_ok H HK eq_refl (le_n 5)) as [s Hs]. exists s. split; [exact Hs|].
  exact (proj1 (@C105_sp_partial clstsq 2 Phi y 1 5 (1 / 1000) 5 s clstsq_ok H HK eq_refl Hs)).
Qed.
