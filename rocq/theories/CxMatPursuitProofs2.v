From Coq Require Import List Arith Bool Lia Reals Lra.
From Verif Require Import Scalar Vec RVec Loop LoopLemmas OptModel OptProofs OptProofs2 SortedL1Model SelModel SolverSpec PursuitModel CxSpec CxProofs CxSpglModel CxSpglProofs CxPursuitModel CxPursuitSpec CxPursuitProofs CxPursuitProofs2 CxMatPursuitModel CxMatPursuitSpec CxMatPursuitProofs.
Import ListNotations.
Local Open Scope R_scope.

Ltac cvec_eq := repeat (apply (f_equal2 cons); [apply (f_equal2 pair); lra|]); reflexivity.
(** *** subspace pursuit: two unit columns of C^2, the signal is the first *)
Definition sp_phi : list cvec := [[(3 / 5, 0); (0, 4 / 5)]; [(1, 0); (0, 0)]].
Definition sp_y : cvec := [(3 / 5, 0); (0, 4 / 5)].
Lemma sp_rows : has_rows 2 sp_phi. Proof. intros a [<-|[<-|[]]]; reflexivity. Qed.
Lemma sp_corr : mcorr sp_phi sp_y = [(- (7 / 25), 0); (3 / 5, 0)].
Proof. unfold mcorr, sp_phi, sp_y. cbn. unfold Cadd, Cmul. cbn. cvec_eq. Qed.
Lemma sp_first lstsq : ms_I (msp_init lstsq sp_phi sp_y 1) = [1%nat].
Proof.
  unfold msp_init, ms_make. cbn [ms_I]. rewrite sp_corr. unfold clargest_indices, argsort. cbn [map length seq fold_right ins_idx]. cbn [nth].
  rewrite !cabs_re, Rabs_Ropp, !Rabs_pos_eq by lra. destruct (Rleb_spec (7 / 25) (3 / 5)) as [L|L]; [reflexivity|exfalso; apply L; lra].
Qed.
Lemma sp_res lstsq : cleast_squares_solver lstsq -> ms_r (msp_init lstsq sp_phi sp_y 1) = [(0, 0); (0, 4 / 5)].
Proof.
  intros H. assert (HK : (1 <= length sp_phi)%nat) by (cbn; lia).
  destruct (@msp_init_ok 2 sp_phi 1 sp_y sp_rows HK eq_refl lstsq H) as [C B]. pose proof (@mbest_orth 2 sp_phi 1 sp_y sp_rows eq_refl _ C B) as O.
  destruct C as (C1 & C2 & C3 & C4 & C5). rewrite (sp_first lstsq) in O, C4. specialize (O 1%nat (or_introl eq_refl)).
  destruct (ms_x (msp_init lstsq sp_phi sp_y 1)) as [|[u v] [|w x]]; try discriminate. rewrite C4 in *.
  unfold combine_columns, sp_y in *. cbn in *. unfold Csub, Cadd, Cmul, Cconj in *. cbn in *. injection O as O1 O2. cvec_eq.
Qed.
Lemma sp_stop lstsq max_iters rtol fuel : cleast_squares_solver lstsq -> 0 <= rtol <= 1 ->
  msp lstsq sp_phi sp_y 1 max_iters rtol (S fuel) = Done (msp_init lstsq sp_phi sp_y 1).
Proof.
  intros H Hr. unfold msp. cbn [while_]. assert (C : msp_cond sp_y max_iters rtol (msp_init lstsq sp_phi sp_y 1) = false); [|now rewrite C].
  unfold msp_cond. assert (E : ms_rn (msp_init lstsq sp_phi sp_y 1) = (- (16 / 25), 0)).
  { change (ms_rn (msp_init lstsq sp_phi sp_y 1)) with (sumsq (ms_r (msp_init lstsq sp_phi sp_y 1))). rewrite sp_res by exact H. unfold sumsq. cbn. unfold Cadd, Cmul. cbn. apply (f_equal2 pair); lra. }
  rewrite E. assert (E2 : sumsq sp_y = (- (7 / 25), 0)) by (unfold sumsq, sp_y; cbn; unfold Cadd, Cmul; cbn; apply (f_equal2 pair); lra). rewrite E2.
  unfold Cgtb, Cmul. cbn [fst snd]. assert (0 <= rtol ^ 2 <= 1) by nra.
  destruct (Rltb_spec (- (7 / 25) * rtol ^ 2 - 0 * 0) (- (16 / 25))) as [L|L]; [lra|].
  destruct (Reqb_spec (- (16 / 25)) (- (7 / 25) * rtol ^ 2 - 0 * 0)) as [Q|Q]; [lra|]. reflexivity.
Qed.

(** *** orthogonal matching pursuit: an orthonormal basis of C^2 *)
Definition omp_phi : list cvec := [[(0, 1); (0, 0)]; [(0, 0); (1, 0)]].
Definition omp_y : cvec := [(0, 1); (3, 0)].
Lemma omp_rows : has_rows 2 omp_phi. Proof. intros a [<-|[<-|[]]]; reflexivity. Qed.
Lemma omp_run solve_L spd csqrt :
  solve_L [[(1, 0)]] [(0, 0)] = [(0, 0)] -> csqrt (1, 0) = (1, 0) -> (forall b, length b = 2%nat -> spd [[(1, 0); (0, 0)]; [(0, 0); (1, 0)]] b = b) ->
  momp solve_L spd csqrt omp_phi omp_y 2 = Done (MSol [(3, 0); (-1, 0)] [1%nat; 0%nat] [(0, 2); (0, 0)] (-4, 0) 2).
Proof.
  intros H1 H2 H3.
  assert (P : mcorr omp_phi omp_y = [(-1, 0); (3, 0)]) by (unfold mcorr, omp_phi, omp_y; cbn; unfold Cadd, Cmul; cbn; cvec_eq).
  assert (I0 : momp_init omp_phi omp_y = MOMP (MSol [(3, 0)] [1%nat] [(0, 1); (0, 0)] (-1, 0) 1) [[(1, 0)]]).
  { unfold momp_init. rewrite P. unfold cabs_max_idx, argmax. cbn [map argmax_from]. rewrite ltb_cabs_t by (cbn; lra). cbn [cgather map nth]. unfold ms_make.
    assert (R : vsub (omp_y : cvec) (msynth omp_phi (length omp_y) [1%nat] [(3, 0)]) = [(0, 1); (0, 0)]) by (unfold msynth, omp_y; cbn; unfold Csub, Cadd, Cmul; cbn; cvec_eq).
    cbn [nth]. match goal with |- MOMP (MSol _ _ ?r _ _) _ = _ => replace r with ([(0, 1); (0, 0)] : cvec) by (symmetry; exact R) end.
    f_equal. f_equal. unfold sumsq. cbn. unfold Cadd, Cmul. cbn. apply (f_equal2 pair); lra. }
  unfold momp. change ((2 <? 2)%nat) with false. cbn iota. change (2 - 1)%nat with 1%nat. cbn [Nat.iter nat_rect]. rewrite I0. f_equal. unfold momp_step. cbn [mo_sol mo_L ms_r ms_I ms_it]. rewrite P.
  assert (Q : mcorr omp_phi [(0, 1); (0, 0)] = [(-1, 0); (0, 0)]) by (unfold mcorr, omp_phi; cbn; unfold Cadd, Cmul; cbn; cvec_eq).
  rewrite Q. unfold cabs_max_idx, argmax. cbn [map argmax_from]. rewrite ltb_cabs_f by (cbn; lra). cbn [app cgather map nth].
  assert (V : map (fun a : cvec => dotu a (nth 0 omp_phi [] : cvec)) (mcols omp_phi [1%nat]) = [(0, 0)] :> cvec) by (cbn; unfold Cadd, Cmul; cbn; cvec_eq).
  rewrite V. unfold cgram_chol_update. rewrite H1.
  assert (S1 : Csub (1, 0) (sumsq [(0, 0)]) = (1, 0)) by (unfold sumsq; cbn; unfold Csub, Cadd, Cmul; cbn; apply (f_equal2 pair); lra).
  rewrite S1, H2. cbn [map app]. rewrite H3 by reflexivity. unfold ms_make.
  assert (R : vsub (omp_y : cvec) (msynth omp_phi (length omp_y) [1%nat; 0%nat] [(3, 0); (-1, 0)]) = [(0, 2); (0, 0)]) by (unfold msynth, omp_y; cbn; unfold Csub, Cadd, Cmul; cbn; cvec_eq).
  cbn [mo_sol]. match goal with |- MSol _ _ ?r _ _ = _ => replace r with ([(0, 2); (0, 0)] : cvec) by (symmetry; exact R) end.
  f_equal. unfold sumsq. cbn. unfold Cadd, Cmul. cbn. apply (f_equal2 pair); lra.
Qed.

(** *** matching pursuit: the residual doubles in every iteration *)
Lemma mmp_step k it :
  cmp_body (mdict [[(0, 1)]]) [(1, 0)] (CMPState [0] [(2 ^ k, 0)] (1, 0) it) = Some (CMPState [0] [(2 ^ S k, 0)] (1, 0) (S it)).
Proof.
  unfold cmp_body. cbn [cm_r cm_x cm_it mdict cd_trans cd_atom mcorr map]. unfold cabs_max_idx, argmax. cbn [map argmax_from nth]. f_equal. f_equal.
  - cbn. apply (f_equal2 cons); [unfold Cadd, Cmul; cbn; lra|reflexivity].
  - cbn. unfold Csub, Cadd, Cmul. cbn. apply (f_equal2 cons); [apply (f_equal2 pair); lra|reflexivity].
  - unfold sumsq. cbn. unfold Cadd, Cmul. cbn. apply (f_equal2 pair); lra.
Qed.
Lemma mmp_from max_iters rtol : 0 <= rtol < 1 -> forall d k fuel, (k + d = max_iters)%nat -> (d < fuel)%nat ->
  while_ (cmp_cond [(1, 0)] max_iters rtol) (cmp_body (mdict [[(0, 1)]]) [(1, 0)]) fuel (CMPState [0] [(2 ^ k, 0)] (1, 0) k) =
  Done (CMPState [0] [(2 ^ max_iters, 0)] (1, 0) max_iters).
Proof.
  intros Hr. assert (C : forall k, cmp_cond [(1, 0)] max_iters rtol (CMPState [0] [(2 ^ k, 0)] (1, 0) k) = (k <? max_iters)%nat).
  { intros k. unfold cmp_cond. cbn [cm_rn cm_it]. assert (S1 : sumsq [(1, 0)] = (1, 0)) by (unfold sumsq; cbn; unfold Cadd, Cmul; cbn; apply (f_equal2 pair); lra). rewrite S1.
    unfold Cgtb, Cmul. cbn [fst snd]. destruct (Rltb_spec (1 * rtol ^ 2 - 0 * 0) 1) as [L|L]; [reflexivity|exfalso; apply L; nra]. }
  induction d as [|d IH]; intros k [|fuel] E F; try lia; cbn [while_]; rewrite C.
  - assert (k = max_iters) by lia. subst k. rewrite Nat.ltb_irrefl. reflexivity.
  - destruct (Nat.ltb_spec k max_iters); [|lia]. rewrite mmp_step. apply IH; lia.
Qed.
Lemma mmp_run max_iters rtol fuel : 0 <= rtol < 1 -> (max_iters < fuel)%nat ->
  mmp [[(0, 1)]] [(1, 0)] max_iters rtol fuel = Done (CMPState [0] [(2 ^ max_iters, 0)] (1, 0) max_iters).
Proof.
  intros Hr HF. unfold mmp, cmp, cmp_init. cbn [mdict cd_n length repeat].
  assert (S1 : sumsq [(1, 0)] = (1, 0)) by (unfold sumsq; cbn; unfold Cadd, Cmul; cbn; apply (f_equal2 pair); lra). rewrite S1.
  now apply (@mmp_from max_iters rtol Hr max_iters 0%nat fuel).
Qed.
