From Coq Require Import List Arith Bool Lia Reals Lra.
From Verif Require Import Scalar Vec RVec Loop OptModel SelModel PursuitModel CxSpec CxProofs CxSpglModel CxPursuitModel CxPursuitSpec CxPursuitProofs CxPursuitProofs2 CxMatPursuitModel CxMatPursuitSpec CxMatPursuitProofs CxMatPursuitProofs2 CxMatPursuitProofs3.
Import ListNotations.
Local Open Scope R_scope.

(** *** a complex square root *)
Definition csqrt0 (z : Cx) : Cx :=
  (sqrt ((cabs z + fst z) / 2), (if Rle_dec 0 (snd z) then 1 else -1) * sqrt ((cabs z - fst z) / 2)).
Lemma csqrt0_ok z : Cmul (csqrt0 z) (csqrt0 z) = z.
Proof.
  destruct z as [a b]. unfold csqrt0. cbn [fst snd]. set (n := cabs (a, b)).
  assert (N0 : 0 <= n) by apply sqrt_pos. assert (N2 : n * n = a * a + b * b) by (unfold n, cabs; cbn [fst snd]; apply sqrt_sqrt; nra).
  assert (P : 0 <= (n + a) / 2) by nra. assert (Q : 0 <= (n - a) / 2) by nra.
  pose proof (sqrt_sqrt _ P) as SP. pose proof (sqrt_sqrt _ Q) as SQ. pose proof (sqrt_pos ((n + a) / 2)) as UP. pose proof (sqrt_pos ((n - a) / 2)) as UQ.
  assert (E : (2 * (sqrt ((n + a) / 2) * sqrt ((n - a) / 2))) = Rabs b).
  { apply Rsqr_inj; [nra|apply Rabs_pos|]. rewrite <- Rsqr_abs. unfold Rsqr. nra. }
  unfold Cmul. cbn [fst snd]. destruct (Rle_dec 0 b) as [H|H].
  - rewrite Rabs_pos_eq in E by exact H. apply (f_equal2 pair); nra.
  - rewrite Rabs_left in E by lra. apply (f_equal2 pair); nra.
Qed.
Lemma csqrt0_1 : csqrt0 (1, 0) = (1, 0).
Proof.
  unfold csqrt0. cbn [fst snd]. rewrite cabs_re, Rabs_R1. replace ((1 + 1) / 2) with 1 by lra. replace ((1 - 1) / 2) with 0 by lra. rewrite sqrt_1, sqrt_0. f_equal. ring.
Qed.
(** *** the standard basis of C^2 *)
Definition e2 : list cvec := [[(1, 0); (0, 0)]; [(0, 0); (1, 0)]].
Definition y2 : cvec := [(1, 1); (0, 3)].
Definition same (L : list cvec) (b : cvec) : cvec := b.
Lemma omp_ex_factor : mo_L (Nat.iter 1 (momp_step same same csqrt0 e2 y2) (momp_init e2 y2)) = [[(1, 0); (0, 0)]; [(0, 0); (1, 0)]].
Proof.
  assert (P : mcorr e2 y2 = [(1, 1); (0, 3)]) by (unfold mcorr, e2, y2; cbn; unfold Cadd, Cmul; cbn; cvec_eq).
  assert (I0 : ms_I (mo_sol (momp_init e2 y2)) = [1%nat]).
  { unfold momp_init. cbn [mo_sol ms_make ms_I]. rewrite P. unfold cabs_max_idx, argmax. cbn [map argmax_from]. rewrite ltb_cabs_t by (cbn; lra). reflexivity. }
  assert (R0 : ms_r (mo_sol (momp_init e2 y2)) = [(1, 1); (0, 0)]).
  { unfold momp_init. cbn [mo_sol ms_make ms_r]. rewrite P. unfold cabs_max_idx, argmax. cbn [map argmax_from]. rewrite ltb_cabs_t by (cbn; lra). cbn. unfold Csub, Cadd, Cmul. cbn. cvec_eq. }
  cbn [Nat.iter nat_rect]. unfold momp_step. cbn [mo_L]. rewrite I0, R0.
  assert (Q : mcorr e2 [(1, 1); (0, 0)] = [(1, 1); (0, 0)]) by (unfold mcorr, e2; cbn; unfold Cadd, Cmul; cbn; cvec_eq).
  rewrite Q. unfold cabs_max_idx, argmax. cbn [map argmax_from]. rewrite ltb_cabs_f by (cbn; lra). unfold cgram_chol_update, same.
  assert (V : map (fun a : cvec => dotu a (nth 0 e2 [] : cvec)) (mcols e2 [1%nat]) = [(0, 0)] :> cvec) by (cbn; unfold Cadd, Cmul; cbn; cvec_eq).
  rewrite V. assert (S1 : Csub (1, 0) (sumsq [(0, 0)]) = (1, 0)) by (unfold sumsq; cbn; unfold Csub, Cadd, Cmul; cbn; apply (f_equal2 pair); lra).
  rewrite S1, csqrt0_1. reflexivity.
Qed.
Lemma same_lower : solves_lower same [[(1, 0)]].
Proof. intros [|[p q] [|d b]] L; try discriminate. split; [reflexivity|]. cbn. unfold Cadd, Cmul. cbn. apply (f_equal2 cons); [apply (f_equal2 pair); ring|reflexivity]. Qed.
Lemma same_gram : solves_gram same [[(1, 0); (0, 0)]; [(0, 0); (1, 0)]].
Proof.
  intros [|[p q] [|[u v] [|d b]]] L; try discriminate. split; [reflexivity|]. cbn. unfold Cadd, Cmul. cbn. repeat (apply (f_equal2 cons); [apply (f_equal2 pair); ring|]). reflexivity.
Qed.
