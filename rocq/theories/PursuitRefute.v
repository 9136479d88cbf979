From Coq Require Import List Arith Bool Lia Reals Lra Permutation.
From Verif Require Import Scalar Vec RVec RMat Loop LoopLemmas OptSpec OptModel OptProofs OptProofs2 SortedL1Model SortedL1Proofs CGModel SlsModel SlsProofs SlsLemmas SelModel SelSpec SelProofs DictModel DictSpec DictProofs SolverSpec SolverLemmas CGProofs PursuitModel PursuitSpec PursuitProofs PursuitProofs2 PursuitProofs3 PursuitProofs4 PursuitProofs5 PursuitLemmas PursuitLemmas2 PursuitLemmas3 LsqrMinNorm.
Import ListNotations.
Set Implicit Arguments.
Local Open Scope R_scope.
Definition I2 : mat := [[1; 0]; [0; 1]].
Definition I2d : dictionary := matrix_dict I2.
Lemma I2_shape : shape 2 2 I2. Proof. split; [reflexivity|]. intros r [<-|[<-|[]]]; reflexivity. Qed.
Lemma I2_valid : valid_dict 2 I2d. Proof. apply (matrix_dict_valid I2_shape); lia. Qed.
Lemma I2_unit : unit_dict 2 I2d.
Proof. split; [apply I2_valid|]. intros [|[|i]] Hi; [| |exfalso; cbn in Hi; lia]; cbn; ring. Qed.
Lemma I2_trans a b : d_trans I2d [a; b] = [a; b]. Proof. cbn. leq. Qed.
Lemma I2_atom0 : d_atom I2d 0 = [1; 0]. Proof. reflexivity. Qed.
Lemma I2_atom1 : d_atom I2d 1 = [0; 1]. Proof. reflexivity. Qed.
Lemma I2_n : d_n I2d = 2%nat. Proof. reflexivity. Qed.
Opaque I2d.
Ltac rwl H := let E := fresh in pose proof H as E; match type of E with ?a = _ => match a with ?f _ _ => match goal with |- context [f ?c ?y] => change (f c y) with a end end end; rewrite E; clear E.
(** *** matching pursuit *)
Lemma mp_refuted : exists s, mp I2d [1; 0] 2 (1 / 2) 2 = Done s /\ mp_r s = rzero 2 /\ mp_rn s = 1 /\ mp_it s = 2%nat.
Proof.
  assert (E1 : argmax (map Rabs [1; 0]) = 0%nat) by (cbn; rewrite Rabs_R0, Rabs_R1; rdec; reflexivity).
  assert (E2 : argmax (map Rabs [0; 0]) = 0%nat) by (cbn; rewrite Rabs_R0; rdec; reflexivity).
  assert (N : rdot [1; 0] [1; 0] = 1) by (cbn; ring).
  exists (MPState [1; 0] [0; 0] 1 2). split; [|split; [reflexivity|auto]].
  unfold mp, mp_init. rewrite N, I2_n. 
  assert (B1 : mp_body I2d [1; 0] (MPState (rzero 2) [1; 0] 1 0) = Some (MPState [1; 0] [0; 0] 1 1)).
  { unfold mp_body. cbn [mp_r mp_x mp_it]. rewrite I2_trans, E1, I2_atom0, N. cbn. do 2 f_equal; leq. }
  assert (B2 : mp_body I2d [1; 0] (MPState [1; 0] [0; 0] 1 1) = Some (MPState [1; 0] [0; 0] 1 2)).
  { unfold mp_body. cbn [mp_r mp_x mp_it]. rewrite I2_trans, E2, I2_atom0, N. cbn. do 2 f_equal; leq. }
  assert (C : forall k x r, (k < 2)%nat -> mp_cond [1; 0] 2 (1 / 2) (MPState x r 1 k) = true).
  { intros k x r Hk. unfold mp_cond. cbn [mp_rn mp_it]. rewrite N. rdec; cbn [andb]. now apply Nat.ltb_lt. }
  cbn [while_]. rewrite C, B1 by lia. rewrite C, B2 by lia. unfold mp_cond. cbn [mp_it]. rewrite andb_false_r. reflexivity.
Qed.
(** *** OMP *)
Lemma E10 : abs_max_idx [1; 0] = 0%nat. Proof. unfold abs_max_idx. cbn. rewrite Rabs_R0, Rabs_R1; rdec; reflexivity. Qed.
Lemma E00 : abs_max_idx [0; 0] = 0%nat. Proof. unfold abs_max_idx. cbn. rewrite Rabs_R0; rdec; reflexivity. Qed.
Lemma omp_first_10 : omp_first I2d [1; 0] = OMPState [1] [0%nat] [0; 0] [([], 1)] 0 1.
Proof.
  unfold omp_first. rewrite I2_trans, E10. unfold synth. cbn [gather map length]. rewrite I2_atom0. cbn. f_equal; [leq|ring].
Qed.
Lemma omp_breakdown : omp_matrix I2d [1; 0] 2 = None.
Proof.
  unfold omp_matrix. cbn [Nat.leb Nat.sub omp_steps]. rewrite omp_first_10. unfold omp_step. cbn [om_r om_I om_L]. rewrite !I2_trans, E00.
  cbn [map]. rewrite I2_atom0. unfold gram_chol_update. cbn. rdec. reflexivity.
Qed.
Lemma omp_operator_first : exists s, omp_operator I2d [1; 0] 1 0 1 = Done s /\ om_r s = rzero 2 /\ om_rn s = 1.
Proof.
  assert (N : rdot [1; 0] [1; 0] = 1) by (cbn; ring). assert (N2 : nrm [1; 0] = 1) by (unfold nrm; rewrite N; apply sqrt_1).
  assert (E : normalize [1; 0] = Some [1; 0]).
  { unfold normalize. rewrite N2. rdec. f_equal. cbn. leq. }
  unfold omp_operator. rewrite E, N2. unfold omp_op_init. rewrite omp_first_10, N. cbn [om_x om_I om_r om_L om_rn om_it].
  cbn [while_]. unfold omp_op_cond. cbn [om_rn om_it]. rewrite andb_false_r. eexists. split; [reflexivity|]. cbn. split; [leq|ring].
Qed.
(** *** CoSaMP *)
Ltac sortd := cbn; rewrite ?Rabs_R0; rewrite ?Rabs_pos_eq by lra; repeat progress (rdec; cbn [ins_idx nth rev app firstn fold_right seq length]); reflexivity.
Definition sorted_by_index (l : list nat) : Prop := forall i j, (i < j < length l)%nat -> (nth i l 0 < nth j l 0)%nat.
Lemma ls_I2_10 lstsq : least_squares_solver lstsq -> lstsq [[0; 1]; [1; 0]] [1; 2] = [2; 1].
Proof.
  intros H. destruct (H 2%nat [[0; 1]; [1; 0]] [1; 2] eq_refl) as [L M]; [intros c [<-|[<-|[]]]; reflexivity|].
  destruct (lstsq _ _) as [|a [|b [|]]]; try discriminate L. specialize (M [2; 1] eq_refl). cbn in M.
  assert ((1 - b) * (1 - b) + (2 - a) * (2 - a) <= 0) by (ring_simplify in M; ring_simplify; lra).
  pose proof (Rle_0_sqr (1 - b)). pose proof (Rle_0_sqr (2 - a)). unfold Rsqr in *.
  assert (E1 : (1 - b) * (1 - b) = 0) by lra. assert (E2 : (2 - a) * (2 - a) = 0) by lra.
  apply Rmult_integral in E1, E2. f_equal; [|f_equal]; lra.
Qed.
Lemma li_12 : largest_indices [1; 2] 6 = [1%nat; 0%nat].
Proof. unfold largest_indices, argsort. sortd. Qed.
Lemma li_21 : largest_indices [2; 1] 2 = [0%nat; 1%nat].
Proof. unfold largest_indices, argsort. sortd. Qed.
Lemma cosamp_misaligned lstsq : least_squares_solver lstsq ->
  exists s, cosamp_matrix lstsq I2d [1; 2] 2 1 0 1 = Done s /\ p_I s = [0%nat; 1%nat] /\ p_x s = [2; 1] /\ p_r s = [-1; 1].
Proof.
  intros H. unfold cosamp_matrix, cosamp_init. rewrite I2_trans. cbn [Nat.mul Nat.add]. rewrite li_12. cbn [map]. rewrite I2_atom0, I2_atom1. rwl (ls_I2_10 H). rewrite li_21.
  cbn [pick map nth nsort fold_right ninsert Nat.leb gather]. 
  cbn [while_]. unfold ps_cond at 1. unfold ps_make at 1. cbn [p_it]. rewrite andb_false_r. eexists. split; [reflexivity|].
  unfold ps_make, synth. cbn [p_I p_x p_r length map]. rewrite I2_atom0, I2_atom1. split; auto. split; auto. cbn. leq.
Qed.
(** least norm solutions with repeated columns *)
Lemma ls_rep lstsq : min_norm_solver lstsq -> lstsq [[1; 0]; [0; 1]; [0; 1]; [1; 0]] [1; 2] = [1 / 2; 1; 1; 1 / 2].
Proof.
  intros [H HM]. assert (Hc : forall c, In c [[1; 0]; [0; 1]; [0; 1]; [1; 0]] -> length c = 2%nat) by (intros c [<-|[<-|[<-|[<-|[]]]]]; reflexivity).
  destruct (H 2%nat _ [1; 2] eq_refl Hc) as [L M]. specialize (HM 2%nat _ [1; 2] [1 / 2; 1; 1; 1 / 2] eq_refl Hc eq_refl).
  destruct (lstsq _ _) as [|a [|b [|c [|d [|]]]]]; try discriminate L. specialize (M [1 / 2; 1; 1; 1 / 2] eq_refl).
  assert (M' : (1 - a - d) * (1 - a - d) + (2 - b - c) * (2 - b - c) <= 0) by (cbn in M; ring_simplify in M; ring_simplify; lra).
  pose proof (Rle_0_sqr (1 - a - d)). pose proof (Rle_0_sqr (2 - b - c)). unfold Rsqr in *.
  assert (E1 : (1 - a - d) * (1 - a - d) = 0) by lra. assert (E2 : (2 - b - c) * (2 - b - c) = 0) by lra.
  apply Rmult_integral in E1, E2. assert (Ed : d = 1 - a) by lra. assert (Ec : c = 2 - b) by lra. subst c d. clear - HM.
  assert (Q : nrm2 [a; b; 2 - b; 1 - a] <= nrm2 [1 / 2; 1; 1; 1 / 2]) by (apply HM; cbn; field).
  cbn in Q. assert (Q' : (a - 1 / 2) * (a - 1 / 2) + (b - 1) * (b - 1) <= 0) by (ring_simplify in Q; ring_simplify; lra).
  pose proof (Rle_0_sqr (a - 1 / 2)). pose proof (Rle_0_sqr (b - 1)). unfold Rsqr in *.
  assert (E1 : (a - 1 / 2) * (a - 1 / 2) = 0) by lra. assert (E2 : (b - 1) * (b - 1) = 0) by lra.
  apply Rmult_integral in E1, E2. repeat (f_equal; try lra).
Qed.
Lemma li_rep : largest_indices [1 / 2; 1; 1; 1 / 2] 2 = [2%nat; 1%nat].
Proof. unfold largest_indices, argsort. sortd. Qed.
Lemma li_00 : largest_indices [0; 0] 4 = [1%nat; 0%nat].
Proof. unfold largest_indices, argsort. sortd. Qed.
Lemma cosamp_repeats lstsq : min_norm_solver lstsq ->
  exists s, cosamp_matrix lstsq I2d [1; 2] 2 2 0 2 = Done s /\ p_I s = [1%nat; 1%nat] /\ p_r s = [1; 0].
Proof.
  intros HM. pose proof (proj1 HM) as H. 
  assert (E0 : cosamp_init lstsq I2d [1; 2] 2 = PS [2; 1] [0; 1]%nat [-1; 1] 2 1 [0; 1]%nat).
  { unfold cosamp_init. rewrite I2_trans. cbn [Nat.mul Nat.add]. rewrite li_12. cbn [map]. rewrite I2_atom0, I2_atom1. rwl (ls_I2_10 H). rewrite li_21.
    cbn [pick map nth nsort fold_right ninsert Nat.leb gather]. unfold ps_make, synth. cbn [length map]. rewrite I2_atom0, I2_atom1.
    cbn. f_equal; [leq|ring]. }
  assert (E1 : exists s, cosamp_body lstsq I2d [1; 2] 2 (PS [2; 1] [0; 1]%nat [-1; 1] 2 1 [0; 1]%nat) = Some s /\ p_I s = [1%nat; 1%nat] /\ p_r s = [1; 0] /\ p_it s = 2%nat).
  { unfold cosamp_body. cbn [p_r p_I p_it]. rewrite I2_trans. cbn [zero_at length tab seq map existsb Nat.eqb orb nth Nat.mul Nat.add app].
    change (zero_at [-1; 1] [0%nat; 1%nat]) with [0; 0]. rewrite li_00. cbn [app map]. rewrite I2_atom0, I2_atom1. rwl (ls_rep HM). rewrite li_rep. cbn [pick map nth gather].
    eexists. split; [reflexivity|]. unfold ps_make, synth. cbn [p_I p_r p_it length map]. rewrite I2_atom1. split; auto. split; auto. cbn. leq. }
  destruct E1 as (s & B & S1 & S2 & S3). exists s. split; auto. unfold cosamp_matrix. rewrite E0. cbn [while_].
  unfold ps_cond at 1. cbn [p_rn p_it]. replace (Rltb _ 2) with true by (rdec; auto). cbn [andb Nat.ltb Nat.leb]. rewrite B.
  unfold ps_cond. rewrite S3. cbn [Nat.ltb Nat.leb]. rewrite andb_false_r. reflexivity.
Qed.
(** *** subspace pursuit *)
Definition P32d : dictionary := matrix_dict [[1; 0]; [0; 1]; [0; 0]].
Lemma P32_shape : shape 3 2 [[1; 0]; [0; 1]; [0; 0]]. Proof. split; [reflexivity|]. intros r [<-|[<-|[<-|[]]]]; reflexivity. Qed.
Lemma P32_unit : unit_dict 3 P32d.
Proof. split; [apply (matrix_dict_valid P32_shape); lia|]. intros [|[|i]] Hi; [| |exfalso; cbn in Hi; lia]; cbn; ring. Qed.
Lemma P32_trans a b c : d_trans P32d [a; b; c] = [a; b]. Proof. cbn. leq. Qed.
Lemma P32_atom0 : d_atom P32d 0 = [1; 0; 0]. Proof. reflexivity. Qed.
Lemma P32_atom1 : d_atom P32d 1 = [0; 1; 0]. Proof. reflexivity. Qed.
Opaque P32d.
Lemma sq2 a b : a * a + b * b <= 0 -> a = 0 /\ b = 0.
Proof.
  intros H. pose proof (Rle_0_sqr a). pose proof (Rle_0_sqr b). unfold Rsqr in *.
  assert (E1 : a * a = 0) by lra. assert (E2 : b * b = 0) by lra. apply Rmult_integral in E1, E2. split; lra.
Qed.
Lemma ls_P10 lstsq : least_squares_solver lstsq -> lstsq [[0; 1; 0]; [1; 0; 0]] [2; 3; 1] = [3; 2].
Proof.
  intros H. destruct (H 3%nat [[0; 1; 0]; [1; 0; 0]] [2; 3; 1] eq_refl) as [L M]; [intros c [<-|[<-|[]]]; reflexivity|].
  destruct (lstsq _ _) as [|a [|b [|]]]; try discriminate L. specialize (M [3; 2] eq_refl). cbn in M.
  destruct (@sq2 (2 - b) (3 - a)); [ring_simplify in M; ring_simplify; lra|]. f_equal; [|f_equal]; lra.
Qed.
Lemma ls_P1010 lstsq : min_norm_solver lstsq -> lstsq [[0; 1; 0]; [1; 0; 0]; [0; 1; 0]; [1; 0; 0]] [2; 3; 1] = [3 / 2; 1; 3 / 2; 1].
Proof.
  intros [H HM]. assert (Hc : forall c, In c [[0; 1; 0]; [1; 0; 0]; [0; 1; 0]; [1; 0; 0]] -> length c = 3%nat) by (intros c [<-|[<-|[<-|[<-|[]]]]]; reflexivity).
  destruct (H 3%nat _ [2; 3; 1] eq_refl Hc) as [L M]. specialize (HM 3%nat _ [2; 3; 1] [3 / 2; 1; 3 / 2; 1] eq_refl Hc eq_refl).
  destruct (lstsq _ _) as [|a [|b [|c [|d [|]]]]]; try discriminate L. specialize (M [3 / 2; 1; 3 / 2; 1] eq_refl).
  destruct (@sq2 (2 - b - d) (3 - a - c)); [cbn in M; ring_simplify in M; ring_simplify; lra|].
  assert (Ed : d = 2 - b) by lra. assert (Ec : c = 3 - a) by lra. subst c d. clear - HM.
  assert (Q : nrm2 [a; b; 3 - a; 2 - b] <= nrm2 [3 / 2; 1; 3 / 2; 1]) by (apply HM; cbn; field).
  cbn in Q. destruct (@sq2 (a - 3 / 2) (b - 1)); [ring_simplify in Q; ring_simplify; lra|]. repeat (f_equal; try lra).
Qed.
Lemma ls_P11 lstsq : least_squares_solver lstsq -> exists a, lstsq [[0; 1; 0]; [0; 1; 0]] [2; 3; 1] = [a; 3 - a].
Proof.
  intros H. destruct (H 3%nat [[0; 1; 0]; [0; 1; 0]] [2; 3; 1] eq_refl) as [L M]; [intros c [<-|[<-|[]]]; reflexivity|].
  destruct (lstsq _ _) as [|a [|b [|]]]; try discriminate L. specialize (M [3; 0] eq_refl). cbn in M. exists a.
  destruct (@sq2 (3 - a - b) 0); [ring_simplify in M; ring_simplify; lra|]. f_equal; f_equal; lra.
Qed.
Lemma li_23 : largest_indices [2; 3] 2 = [1%nat; 0%nat]. Proof. unfold largest_indices, argsort. sortd. Qed.
Lemma li_002 : largest_indices [0; 0] 2 = [1%nat; 0%nat]. Proof. unfold largest_indices, argsort. sortd. Qed.
Lemma li_rep2 : largest_indices [3 / 2; 1; 3 / 2; 1] 2 = [2%nat; 0%nat]. Proof. unfold largest_indices, argsort. sortd. Qed.
Lemma sp_repeats lstsq : min_norm_solver lstsq ->
  (exists s, sp_matrix lstsq P32d [2; 3; 1] 2 1 0 2 = Done s /\ nrm2 (p_r s) = 1) /\
  (exists s, sp_matrix lstsq P32d [2; 3; 1] 2 2 0 2 = Done s /\ p_I s = [1%nat; 1%nat] /\ nrm2 (p_r s) = 5).
Proof.
  intros HM. pose proof (proj1 HM) as H.
  assert (E0 : sp_init lstsq P32d [2; 3; 1] 2 = PS [3; 2] [1; 0]%nat [0; 0; 1] 1 1 [0; 1]%nat).
  { unfold sp_init. rewrite P32_trans, li_23. cbn [map]. rewrite P32_atom0, P32_atom1. rwl (ls_P10 H).
    unfold ps_make, synth. cbn [length map]. rewrite P32_atom0, P32_atom1. cbn. f_equal; [leq|ring]. }
  assert (E1 : exists s, sp_body lstsq P32d [2; 3; 1] 2 (PS [3; 2] [1; 0]%nat [0; 0; 1] 1 1 [0; 1]%nat) = Some s /\ p_I s = [1%nat; 1%nat] /\ p_r s = [2; 0; 1] /\ p_it s = 2%nat).
  { unfold sp_body. cbn [p_r p_I p_it]. rewrite P32_trans. 
    change (zero_at [0; 0] [1%nat; 0%nat]) with [0; 0]. rewrite li_002. cbn [app map]. rewrite P32_atom0, P32_atom1. rwl (ls_P1010 HM). rewrite li_rep2. cbn [pick map nth gather].
    rewrite P32_atom1. destruct (ls_P11 H) as [a Ea]. rwl Ea.
    eexists. split; [reflexivity|]. unfold ps_make, synth. cbn [p_I p_r p_it length map]. rewrite P32_atom1. split; auto. split; auto. cbn. leq. }
  split.
  - unfold sp_matrix. rewrite E0. cbn [while_]. unfold ps_cond. cbn [p_it Nat.ltb Nat.leb]. rewrite andb_false_r. eexists. split; [reflexivity|]. cbn. ring.
  - destruct E1 as (s & B & S1 & S2 & S3). exists s. split; [|split; auto].
    + unfold sp_matrix. rewrite E0. cbn [while_].
      unfold ps_cond at 1. cbn [p_rn p_it]. replace (Rltb _ 1) with true by (rdec; auto). cbn [andb Nat.ltb Nat.leb]. rewrite B.
      unfold ps_cond. rewrite S3. cbn [Nat.ltb Nat.leb]. rewrite andb_false_r. reflexivity.
    + rewrite S2. cbn. ring.
Qed.
(** *** the default step of IHT *)
Definition three : dictionary := matrix_dict [[3]].
Lemma three_valid : valid_dict 1 three.
Proof. apply (@matrix_dict_valid 1 1); [split; [reflexivity|]; intros r [<-|[]]; reflexivity|lia]. Qed.
Lemma three_bound : forall z, length z = 1%nat -> nrm2 (combine_atoms 1 three z) = 3 * 3 * nrm2 z.
Proof. intros [|a [|]] H; try discriminate. cbn. ring. Qed.
Lemma three_iht k s0 s M mx : iht_init three [3] 1 (iht_step false None 3) = Some s0 ->
  reaches (ps_cond M mx) (iht_body three [3] 1 (iht_step false None 3)) s0 k s ->
  p_I s = [0%nat] /\ exists x, p_x s = [x] /\ p_r s = [3 - 3 * x] /\ 3 - 3 * x = 3 * (- (194 / 100)) ^ (S k).
Proof.
  intros E0. assert (LI : forall a, largest_indices [a] 1 = [0%nat]) by reflexivity.
  induction 1 as [|k s s' H IH C B].
  - unfold iht_init in E0. cbn [iht_step get_step_size hard_threshold] in E0.
    change (d_trans three [3]) with [3 * 3 + 0] in E0. cbn [rscale map] in E0. rewrite LI in E0. injection E0 as <-. split; [reflexivity|].
    eexists. split; [reflexivity|]. split; [cbn; leq|]. cbn. field.
  - destruct IH as (I1 & x & I2 & I3 & I4). unfold iht_body in B. cbn [iht_step get_step_size hard_threshold] in B.
    rewrite I1, I2, I3 in B. change (d_trans three [3 - 3 * x]) with [(3 - 3 * x) * 3 + 0] in B.
    change (scatter (d_n three) [0%nat] [x]) with [x] in B. cbn [rscale radd map zipw] in B.
    match type of B with context [largest_indices ?l 1] => change (largest_indices l 1) with [0%nat] in B end. injection B as <-.
    split; [reflexivity|]. eexists. split; [reflexivity|]. split; [cbn; leq|].
    change ((- (194 / 100)) ^ S (S k)) with ((- (194 / 100)) * (- (194 / 100)) ^ S k). cbn. cbn in I4. lra.
Qed.
Lemma three_diverges : exists s0, iht_init three [3] 1 (iht_step false None 3) = Some s0 /\
  forall k s s', reaches (ps_cond 0 1000) (iht_body three [3] 1 (iht_step false None 3)) s0 k s ->
    iht_body three [3] 1 (iht_step false None 3) s = Some s' -> (p_it s < 1000)%nat -> 0 < nrm2 (p_r s) /\ nrm2 (p_r s') = (194 / 100) ^ 2 * nrm2 (p_r s).
Proof.
  destruct (iht_init three [3] 1 (iht_step false None 3)) as [s0|] eqn:E0; [|discriminate]. exists s0. split; auto. intros k s s' H B Hit.
  destruct (three_iht E0 H) as (I1 & x & I2 & I3 & I4).
  assert (Np : (- (194 / 100)) ^ S k <> 0) by (apply pow_nonzero; lra). assert (P : 0 < nrm2 (p_r s)).
  { rewrite I3. cbn [nrm2 rdot]. assert (3 - 3 * x <> 0) by (rewrite I4; intros C; apply Rmult_integral in C; lra). unfold nrm2. cbn [rdot]. nra. }
  split; auto.
  assert (Rn : p_rn s = nrm2 (p_r s)).
  { destruct (@iht_reach_good 1 three [3] 1 _ three_valid eq_refl (le_n 1) _ _ _ _ _ E0 H) as [G _]. apply G. }
  assert (C : ps_cond 0 1000 s = true).
  { unfold ps_cond. rewrite Rn. rdec. cbn [andb]. now apply Nat.ltb_lt. }
  destruct (three_iht E0 (reach_S _ _ _ _ _ _ H C B)) as (_ & x' & _ & I3' & I4').
  rewrite I3', I3. unfold nrm2. cbn [rdot]. rewrite I4', I4. change ((- (194 / 100)) ^ S (S k)) with ((- (194 / 100)) * (- (194 / 100)) ^ S k). ring.
Qed.
(** *** non-vacuity *)
(** a dictionary with restricted isometry constant 21/100 that is no isometry *)
Definition RIPd : dictionary := matrix_dict [[1; 0]; [0; 11 / 10]].
Lemma RIPd_valid : valid_dict 2 RIPd.
Proof. apply (@matrix_dict_valid 2 2); [split; [reflexivity|]; intros r [<-|[<-|[]]]; reflexivity|lia]. Qed.
Lemma RIPd_rip S : rip 2 RIPd S (21 / 100).
Proof.
  intros [|a [|b [|]]] H _; try discriminate. cbn.
  replace (_ - _) with (21 / 100 * (b * b)) by field. rewrite Rabs_pos_eq by nra. nra.
Qed.
Lemma RIPd_frame : forall z, length z = d_n RIPd -> nrm2 (combine_atoms 2 RIPd z) <= 121 / 100 * nrm2 z.
Proof. intros [|a [|b [|]]] H; try discriminate. cbn. nra. Qed.
Lemma one_sparse : sparse 1 [0; 2].
Proof. exists [1%nat]. split; [reflexivity|]. intros [|[|[|i]]] Hi; try reflexivity. exfalso. apply Hi. now left. Qed.
(** unit atoms with coherence 7/25 < 1/3 *)
Definition CoD : dictionary := matrix_dict [[1; 7 / 25; 0]; [0; 24 / 25; 0]; [0; 0; 1]].
Lemma CoD_unit : unit_dict 3 CoD.
Proof.
  split; [apply (@matrix_dict_valid 3 3); [split; [reflexivity|]; intros r [<-|[<-|[<-|[]]]]; reflexivity|lia]|].
  intros [|[|[|i]]] Hi; [| | |exfalso; cbn in Hi; lia]; cbn; field.
Qed.
Lemma CoD_coh : coherence_at_most CoD (7 / 25).
Proof.
  intros i j Hi Hj N. apply Rabs_le. cbn in Hi, Hj.
  destruct i as [|[|[|i]]]; try (exfalso; lia); destruct j as [|[|[|j]]]; try (exfalso; lia); cbn; lra.
Qed.
Lemma CoD_support : support [0; 1]%nat [1; 2; 0].
Proof.
  split; [repeat constructor; simpl; lia|]. split; [intros i [<-|[<-|[]]]; simpl; lia|].
  intros [|[|[|i]]] Hi; cbn in *; try lia; split; intros; try lra; auto. intuition lia.
Qed.
Lemma CoD_cond : (2 * INR 2 - 1) * (7 / 25) < 1. Proof. simpl. lra. Qed.
