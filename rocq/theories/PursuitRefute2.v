From Coq Require Import List Arith Bool Lia Reals Lra Permutation.
From Verif Require Import Scalar Vec RVec RMat Loop LoopLemmas OptSpec OptModel OptProofs OptProofs2 SortedL1Model SortedL1Proofs CGModel SlsModel SlsProofs SlsLemmas SelModel SelSpec SelProofs DictModel DictSpec DictProofs SolverSpec SolverLemmas CGProofs PursuitModel PursuitSpec PursuitSpec2 PursuitProofs PursuitProofs2 PursuitProofs3 PursuitProofs4 PursuitProofs5 PursuitLemmas PursuitLemmas2 PursuitLemmas3 LsqrMinNorm PursuitRefute.
Import ListNotations.
Set Implicit Arguments.
Local Open Scope R_scope.

Lemma lc_dot m w : forall cols z, length w = m -> (forall c, In c cols -> length c = m) -> length z = length cols ->
  rdot (lincomb m z cols) w = rdot (map (fun c => rdot c w) cols) z.
Proof.
  intros cols. induction cols as [|c cols IH]; intros [|a z] Lw Hc Lz; try discriminate; cbn [lincomb map].
  - rewrite rdot_zero_l. reflexivity.
  - assert (Lc : length c = m) by (apply Hc; now left). rewrite rdot_add_l by (rewrite ?rscale_len, ?lc_len; auto; intros; apply Hc; now right).
    rewrite rdot_scale_l, IH by (auto; try (intros; apply Hc; now right); simpl in Lz; lia). change (rdot (rdot c w :: map (fun c0 => rdot c0 w) cols) (a :: z)) with (rdot c w * a + rdot (map (fun c0 => rdot c0 w) cols) z). ring.
Qed.
(** a consistent system whose candidate solution lies in the row space *)
Lemma min_norm_is lstsq m cols y w z0 : min_norm_solver lstsq -> length y = m -> (forall c, In c cols -> length c = m) -> length w = m ->
  z0 = map (fun c => rdot c w) cols -> lincomb m z0 cols = y -> lstsq cols y = z0.
Proof.
  intros [H HM] Ly Hc Lw E0 E1. assert (L0 : length z0 = length cols) by (rewrite E0; apply map_length).
  destruct (H m cols y Ly Hc) as [L M]. specialize (HM m cols y z0 Ly Hc L0). specialize (M z0 L0). set (z := lstsq cols y) in *.
  assert (Z0 : nrm2 (rsub y (lincomb m z0 cols)) = 0).
  { rewrite E1. assert (Zy : rsub y y = rzero m) by (apply vec_eq; [rewrite rsub_len, rzero_len; lia|]; intros i Hi; rewrite rsub_nth, rzero_nth by auto; ring).
    unfold nrm2. rewrite Zy. apply rdot_zero_l. }
  assert (Lz : length (lincomb m z cols) = m) by now apply lc_len.
  assert (Z1 : nrm2 (rsub y (lincomb m z cols)) = 0). { pose proof (rdot_pos (rsub y (lincomb m z cols))). fold (nrm2 (rsub y (lincomb m z cols))) in *. unfold nrm2 in *. lra. }
  specialize (HM ltac:(congruence)). apply rdot_eq0 in Z1.
  assert (Ez : lincomb m z cols = y).
  { apply vec_eq; [lia|]. intros i Hi. assert (Q : (rsub y (lincomb m z cols))@i = 0) by (rewrite Z1; apply rzero_nth). rewrite rsub_nth in Q by lia. lra. }
  assert (D1 : rdot z0 z = rdot z0 z0). { pose proof (@lc_dot m w cols z Lw Hc L) as P1. pose proof (@lc_dot m w cols z0 Lw Hc L0) as P2. rewrite <- E0 in P1, P2. rewrite Ez in P1. rewrite E1 in P2. congruence. }
  assert (D2 : rdot (rsub z z0) (rsub z z0) <= 0).
  { rewrite rdot_sub_l, !rdot_sub_r by (rewrite ?rsub_len; lia). rewrite (rdot_sym z z0), D1. unfold nrm2 in HM. lra. }
  pose proof (rdot_pos (rsub z z0)). assert (D3 : rdot (rsub z z0) (rsub z z0) = 0) by lra. apply rdot_eq0 in D3.
  apply vec_eq; [lia|]. intros i Hi. assert (Q : (rsub z z0)@i = 0) by (rewrite D3; apply rzero_nth). rewrite rsub_nth in Q by lia. lra.
Qed.
(** *** CoSaMP on the identity dictionary of size 6 *)
Definition I6 : mat := [[1;0;0;0;0;0]; [0;1;0;0;0;0]; [0;0;1;0;0;0]; [0;0;0;1;0;0]; [0;0;0;0;1;0]; [0;0;0;0;0;1]].
Definition I6d : dictionary := matrix_dict I6.
Lemma I6_shape : shape 6 6 I6. Proof. split; [reflexivity|]. intros r Hr. cbn in Hr. decompose [or] Hr; subst; auto; contradiction. Qed.
Lemma I6_valid : valid_dict 6 I6d. Proof. apply (matrix_dict_valid I6_shape); lia. Qed.
Lemma I6_trans a b c d e f : d_trans I6d [a;b;c;d;e;f] = [a;b;c;d;e;f]. Proof. cbn. leq. Qed.
Lemma I6_atoms : d_atom I6d 0 = [1;0;0;0;0;0] /\ d_atom I6d 1 = [0;1;0;0;0;0] /\ d_atom I6d 2 = [0;0;1;0;0;0] /\
  d_atom I6d 3 = [0;0;0;1;0;0] /\ d_atom I6d 4 = [0;0;0;0;1;0] /\ d_atom I6d 5 = [0;0;0;0;0;1]. Proof. repeat split. Qed.
Lemma I6_n : d_n I6d = 6%nat. Proof. reflexivity. Qed.
Lemma I6_rip S : rip 6 I6d S 0.
Proof.
  intros z Lz _. change (d_n I6d) with 6%nat in Lz. destruct z as [|a [|b [|c [|d [|e [|f [|]]]]]]]; try discriminate Lz.
  unfold combine_atoms, nrm2. cbn. rewrite Rmult_0_l. match goal with |- Rabs ?t <= 0 => replace t with 0 by ring end. rewrite Rabs_R0. lra.
Qed.
Lemma I6_comb : combine_atoms 6 I6d [0;0;0;0;1;2] = [0;0;0;0;1;2]. Proof. cbn. leq. Qed.
Opaque I6d.
Ltac atoms6 := let A := fresh in pose proof I6_atoms as A; destruct A as (? & ? & ? & ? & ? & ?);
  repeat match goal with H : d_atom I6d _ = _ |- _ => rewrite ?H; clear H end.
Notation y6 := [0;0;0;0;1;2].
Ltac inl := let H := fresh in intros ? H; cbn in H; decompose [or] H; subst; auto; contradiction.
Lemma ls6_a lstsq : min_norm_solver lstsq ->
  lstsq [[0;0;0;0;0;1]; [0;0;0;0;1;0]; [0;0;0;1;0;0]; [0;0;1;0;0;0]; [0;1;0;0;0;0]; [1;0;0;0;0;0]] y6 = [2;1;0;0;0;0].
Proof. intros H. apply (@min_norm_is lstsq 6 _ y6 [0;0;0;0;1;2] _ H); auto; [inl|cbn; leq|cbn; leq]. Qed.
Lemma ls6_b lstsq : min_norm_solver lstsq ->
  lstsq [[0;0;0;0;1;0]; [0;0;0;0;0;1]; [0;0;0;0;0;1]; [0;0;0;0;1;0]; [0;0;0;1;0;0]; [0;0;1;0;0;0]] y6 = [1/2;1;1;1/2;0;0].
Proof. intros H. apply (@min_norm_is lstsq 6 _ y6 [0;0;0;0;1/2;1] _ H); auto; [inl|cbn; leq|cbn; leq]. Qed.
Lemma ls6_c lstsq : min_norm_solver lstsq ->
  lstsq [[0;0;0;0;0;1]; [0;0;0;0;0;1]; [0;0;0;0;1;0]; [0;0;0;0;0;1]; [0;0;0;1;0;0]; [0;0;1;0;0;0]] y6 = [2/3;2/3;1;2/3;0;0].
Proof. intros H. apply (@min_norm_is lstsq 6 _ y6 [0;0;0;0;1;2/3] _ H); auto; [inl|cbn; leq|cbn; leq]. Qed.
Ltac liq := unfold largest_indices, argsort; sortd.
Lemma li6_y : largest_indices y6 6 = [5;4;3;2;1;0]%nat. Proof. liq. Qed.
Lemma li6_a : largest_indices [2;1;0;0;0;0] 2 = [0;1]%nat. Proof. liq. Qed.
Lemma li6_0 : largest_indices [0;0;0;0;0;0] 4 = [5;4;3;2]%nat. Proof. liq. Qed.
Lemma li6_1 : largest_indices [0;0;0;0;1;0] 4 = [4;5;3;2]%nat. Proof. liq. Qed.
Lemma li6_b : largest_indices [1/2;1;1;1/2;0;0] 2 = [2;1]%nat. Proof. liq. Qed.
Lemma li6_c : largest_indices [2/3;2/3;1;2/3;0;0] 2 = [2;3]%nat. Proof. liq. Qed.
Definition c6_even (s : ps) : Prop := p_I s = [4;5]%nat /\ ((p_x s = [2;1] /\ p_r s = [0;0;0;0;-1;1]) \/ (p_x s = [1;2/3] /\ p_r s = [0;0;0;0;0;4/3])).
Definition c6_odd (s : ps) : Prop := p_I s = [5;5]%nat /\ p_x s = [1;1] /\ p_r s = [0;0;0;0;1;0].
Lemma c6_init lstsq : min_norm_solver lstsq -> c6_even (cosamp_init lstsq I6d y6 2).
Proof.
  intros H. unfold cosamp_init. rewrite I6_trans. cbn [Nat.mul Nat.add]. rewrite li6_y. cbn [map]. atoms6. rwl (ls6_a H). rewrite li6_a.
  cbn [pick map nth nsort fold_right ninsert Nat.leb gather]. unfold c6_even, ps_make, synth. cbn [p_I p_x p_r length map]. atoms6.
  split; [reflexivity|]. left. split; [reflexivity|]. cbn. leq.
Qed.
Lemma c6_even_step lstsq s s' : min_norm_solver lstsq -> c6_even s -> cosamp_body lstsq I6d y6 2 s = Some s' -> c6_odd s'.
Proof.
  intros H [E1 E2] B. unfold cosamp_body in B. injection B as <-. rewrite E1.
  assert (Z : zero_at (d_trans I6d (p_r s)) [4%nat; 5%nat] = [0;0;0;0;0;0]) by (destruct E2 as [[_ ->]|[_ ->]]; rewrite I6_trans; reflexivity).
  rewrite Z. cbn [Nat.mul Nat.add]. rewrite li6_0. cbn [app map]. atoms6. rwl (ls6_b H). rewrite li6_b. cbn [pick map nth gather].
  unfold c6_odd, ps_make, synth. cbn [p_I p_x p_r length map]. atoms6. split; [reflexivity|]. split; [reflexivity|]. cbn. leq.
Qed.
Lemma c6_odd_step lstsq s s' : min_norm_solver lstsq -> c6_odd s -> cosamp_body lstsq I6d y6 2 s = Some s' -> c6_even s'.
Proof.
  intros H (E1 & _ & E2) B. unfold cosamp_body in B. injection B as <-. rewrite E1, E2, I6_trans.
  change (zero_at [0;0;0;0;1;0] [5;5]%nat) with [0;0;0;0;1;0]. cbn [Nat.mul Nat.add]. rewrite li6_1. cbn [app map]. atoms6. rwl (ls6_c H). rewrite li6_c. cbn [pick map nth gather].
  unfold c6_even, ps_make, synth. cbn [p_I p_x p_r length map]. atoms6. split; [reflexivity|]. right. split; [reflexivity|]. cbn. leq.
Qed.
Lemma c6_run lstsq : min_norm_solver lstsq -> forall max_iters rtol fuel s, cosamp_matrix lstsq I6d y6 2 max_iters rtol fuel = Done s -> 
  solution_x 6 s <> y6 /\ p_r s <> rzero 6.
Proof.
  intros H mi rtol fuel s E. unfold cosamp_matrix in E. apply while_done in E as (k & _ & E & _).
  assert (Q : c6_even s \/ c6_odd s).
  { induction E as [|k s s' E IH C B]; [left; now apply c6_init|]. destruct IH as [IH|IH]; [right; eapply c6_even_step; eauto|left; eapply c6_odd_step; eauto]. }
  unfold solution_x. destruct Q as [(E1 & [(E2 & E3)|(E2 & E3)])|(E1 & E2 & E3)]; rewrite E1, E2, E3; cbn; split; intros X; injection X; lra.
Qed.
(** *** subspace pursuit on four atoms with restricted isometry constant 11/100 *)
Definition S4 : mat := [[0;1/10;0;1]; [0;1;0;0]; [0;0;1;0]; [1;0;0;0]].
Definition S4d : dictionary := matrix_dict S4.
Lemma S4_shape : shape 4 4 S4. Proof. split; [reflexivity|]. intros r Hr. cbn in Hr. decompose [or] Hr; subst; auto; contradiction. Qed.
Lemma S4_valid : valid_dict 4 S4d. Proof. apply (matrix_dict_valid S4_shape); lia. Qed.
Lemma S4_trans a b c d : d_trans S4d [a;b;c;d] = [d; a / 10 + b; c; a]. Proof. cbn. leq. Qed.
Lemma S4_atoms : d_atom S4d 0 = [0;0;0;1] /\ d_atom S4d 1 = [1/10;1;0;0] /\ d_atom S4d 2 = [0;0;1;0] /\ d_atom S4d 3 = [1;0;0;0]. Proof. repeat split. Qed.
Lemma S4_n : d_n S4d = 4%nat. Proof. reflexivity. Qed.
Lemma S4_rip S : rip 4 S4d S (11/100).
Proof.
  intros z Lz _. change (d_n S4d) with 4%nat in Lz. destruct z as [|a [|b [|c [|d [|]]]]]; try discriminate Lz.
  unfold combine_atoms, nrm2. cbn. match goal with |- Rabs ?t <= _ => replace t with (b * b / 100 + b * d / 5) by field end.
  apply Rabs_le. pose proof (Rle_0_sqr (b + d)). pose proof (Rle_0_sqr (b - d)). pose proof (Rle_0_sqr a). pose proof (Rle_0_sqr b). pose proof (Rle_0_sqr c). pose proof (Rle_0_sqr d).
  unfold Rsqr in *. lra.
Qed.
Lemma S4_comb : combine_atoms 4 S4d [0;0;1/20;1] = [1;0;1/20;0]. Proof. cbn. leq. Qed.
Opaque S4d.
Ltac atoms4 := let A := fresh in pose proof S4_atoms as A; destruct A as (? & ? & ? & ?);
  repeat match goal with H : d_atom S4d _ = _ |- _ => rewrite ?H; clear H end.
Notation y4 := [1;0;1/20;0].
Lemma ls4_a lstsq : least_squares_solver lstsq -> lstsq [[1;0;0;0]; [1/10;1;0;0]] y4 = [1;0].
Proof.
  intros H. destruct (H 4%nat [[1;0;0;0]; [1/10;1;0;0]] y4 eq_refl) as [L M]; [inl|].
  destruct (lstsq _ _) as [|a [|b [|]]]; try discriminate L. specialize (M [1; 0] eq_refl). cbn in M.
  destruct (@sq2 (1 - a - b / 10) b); [ring_simplify in M; ring_simplify; lra|]. f_equal; [|f_equal]; lra.
Qed.
Lemma ls4_d lstsq : least_squares_solver lstsq -> exists a, lstsq [[1;0;0;0]; [1;0;0;0]] y4 = [a; 1 - a].
Proof.
  intros H. destruct (H 4%nat [[1;0;0;0]; [1;0;0;0]] y4 eq_refl) as [L M]; [inl|].
  destruct (lstsq _ _) as [|a [|b [|]]]; try discriminate L. specialize (M [1; 0] eq_refl). cbn in M. exists a.
  destruct (@sq2 (1 - a - b) 0); [ring_simplify in M; ring_simplify; lra|]. f_equal; f_equal; lra.
Qed.
Lemma ls4_b lstsq : min_norm_solver lstsq -> lstsq [[1;0;0;0]; [1/10;1;0;0]; [0;0;1;0]; [1;0;0;0]] y4 = [1/2;0;1/20;1/2].
Proof. intros H. apply (@min_norm_is lstsq 4 _ y4 [1/2;-1/20;1/20;0] _ H); auto; [inl|cbn; leq|cbn; leq]. Qed.
Lemma ls4_c lstsq : min_norm_solver lstsq -> lstsq [[1;0;0;0]; [1;0;0;0]; [0;0;1;0]; [1;0;0;0]] y4 = [1/3;1/3;1/20;1/3].
Proof. intros H. apply (@min_norm_is lstsq 4 _ y4 [1/3;0;1/20;0] _ H); auto; [inl|cbn; leq|cbn; leq]. Qed.
Lemma li4_y : largest_indices [0; 1/10 + 0; 1/20; 1] 2 = [3;1]%nat. Proof. liq. Qed.
Lemma li4_r : largest_indices [0; 0; 1/20; 0] 2 = [2;3]%nat. Proof. liq. Qed.
Lemma li4_b : largest_indices [1/2;0;1/20;1/2] 2 = [3;0]%nat. Proof. liq. Qed.
Lemma li4_c : largest_indices [1/3;1/3;1/20;1/3] 2 = [3;1]%nat. Proof. liq. Qed.
Definition s4_inv (s : ps) : Prop := (p_I s = [3;1]%nat \/ p_I s = [3;3]%nat) /\ p_r s = [0;0;1/20;0].
Lemma s4_init lstsq : min_norm_solver lstsq -> s4_inv (sp_init lstsq S4d y4 2).
Proof.
  intros H. unfold sp_init. rewrite S4_trans, li4_y. cbn [map]. atoms4. rwl (ls4_a (proj1 H)).
  unfold s4_inv, ps_make, synth. cbn [p_I p_x p_r length map]. atoms4. split; [auto|]. cbn. leq.
Qed.
Lemma s4_step lstsq s s' : min_norm_solver lstsq -> s4_inv s -> sp_body lstsq S4d y4 2 s = Some s' -> s4_inv s' /\ p_I s' = [3;3]%nat.
Proof.
  intros H [E1 E2] B. unfold sp_body in B. injection B as <-. rewrite E2, S4_trans.
  assert (Z : zero_at [0; 0 / 10 + 0; 1/20; 0] (p_I s) = [0; 0; 1/20; 0]) by (destruct E1 as [-> | ->]; cbn; leq).
  rewrite Z, li4_r. destruct (ls4_d (proj1 H)) as [a Ha].
  assert (Q : pick (p_I s ++ [2;3]%nat) (largest_indices (lstsq (map (d_atom S4d) (p_I s ++ [2;3]%nat)) y4) 2) = [3;3]%nat).
  { destruct E1 as [-> | ->]; cbn [app map]; atoms4; [rwl (ls4_b H); rewrite li4_b | rwl (ls4_c H); rewrite li4_c]; reflexivity. }
  rewrite Q. cbn [map]. atoms4. rwl Ha. unfold s4_inv, ps_make, synth. cbn [p_I p_x p_r length map]. atoms4. split; [|reflexivity]. split; [auto|]. cbn. leq.
Qed.
Lemma s4_run lstsq : min_norm_solver lstsq -> forall max_iters rtol fuel s, sp_matrix lstsq S4d y4 2 max_iters rtol fuel = Done s -> 
  solution_x 4 s <> [0;0;1/20;1] /\ p_r s <> rzero 4.
Proof.
  intros H mi rtol fuel s E. unfold sp_matrix in E. apply while_done in E as (k & _ & E & _).
  assert (Q : s4_inv s).
  { induction E as [|k s s' E IH C B]; [now apply s4_init|]. eapply s4_step; eauto. }
  destruct Q as [E1 E2]. split; [|rewrite E2; cbn; intros X; injection X; lra].
  intros X. apply (f_equal (fun v => v@2)) in X. unfold solution_x, scatter in X. rewrite nth_tab in X by lia.
  destruct E1 as [E1|E1]; rewrite E1 in X; destruct (p_x s) as [|a [|b x]]; cbn in X; try lra; destruct x; cbn in X; lra.
Qed.
(** *** a case that meets the hypotheses *)
Definition I3 : mat := [[1;0;0]; [0;1;0]; [0;0;1]].
Definition I3d : dictionary := matrix_dict I3.
Lemma I3_shape : shape 3 3 I3. Proof. split; [reflexivity|]. intros r Hr. cbn in Hr. decompose [or] Hr; subst; auto; contradiction. Qed.
Lemma I3_valid : valid_dict 3 I3d. Proof. apply (matrix_dict_valid I3_shape); lia. Qed.
Lemma I3_trans a b c : d_trans I3d [a;b;c] = [a;b;c]. Proof. cbn. leq. Qed.
Lemma I3_atoms : d_atom I3d 0 = [1;0;0] /\ d_atom I3d 1 = [0;1;0] /\ d_atom I3d 2 = [0;0;1]. Proof. repeat split. Qed.
Lemma I3_n : d_n I3d = 3%nat. Proof. reflexivity. Qed.
Lemma I3_rip S : rip 3 I3d S 0.
Proof.
  intros z Lz _. change (d_n I3d) with 3%nat in Lz. destruct z as [|a [|b [|c [|]]]]; try discriminate Lz.
  unfold combine_atoms, nrm2. cbn. rewrite Rmult_0_l. match goal with |- Rabs ?t <= 0 => replace t with 0 by ring end. rewrite Rabs_R0. lra.
Qed.
Lemma I3_y : radd (combine_atoms 3 I3d [0;0;2]) [1/10;1/20;0] = [1/10;1/20;2]. Proof. cbn. leq. Qed.
Opaque I3d.
Ltac atoms3 := let A := fresh in pose proof I3_atoms as A; destruct A as (? & ? & ?);
  repeat match goal with H : d_atom I3d _ = _ |- _ => rewrite ?H; clear H end.
Notation y3 := [1/10;1/20;2].
Lemma sq3 a b c : a * a + b * b + c * c <= 0 -> a = 0 /\ b = 0 /\ c = 0.
Proof.
  intros H. pose proof (Rle_0_sqr a). pose proof (Rle_0_sqr b). pose proof (Rle_0_sqr c). unfold Rsqr in *.
  assert (E1 : a * a = 0) by lra. assert (E2 : b * b = 0) by lra. assert (E3 : c * c = 0) by lra. apply Rmult_integral in E1, E2, E3. repeat split; lra.
Qed.
Lemma ls3_a lstsq : least_squares_solver lstsq -> lstsq [[0;0;1]; [1;0;0]; [0;1;0]] y3 = [2;1/10;1/20].
Proof.
  intros H. destruct (H 3%nat [[0;0;1]; [1;0;0]; [0;1;0]] y3 eq_refl) as [L M]; [inl|].
  destruct (lstsq _ _) as [|a [|b [|c [|]]]]; try discriminate L. specialize (M [2; 1/10; 1/20] eq_refl). cbn in M.
  destruct (@sq3 (2 - a) (1/10 - b) (1/20 - c)) as (? & ? & ?); [ring_simplify in M; ring_simplify; lra|]. repeat (f_equal; try lra).
Qed.
Lemma ls3_b lstsq : least_squares_solver lstsq -> lstsq [[0;0;1]; [1;0;0]] y3 = [2;1/10].
Proof.
  intros H. destruct (H 3%nat [[0;0;1]; [1;0;0]] y3 eq_refl) as [L M]; [inl|].
  destruct (lstsq _ _) as [|a [|b [|]]]; try discriminate L. specialize (M [2; 1/10] eq_refl). cbn in M.
  destruct (@sq2 (2 - a) (1/10 - b)) as (? & ?); [ring_simplify in M; ring_simplify; lra|]. repeat (f_equal; try lra).
Qed.
Lemma ls3_c lstsq : least_squares_solver lstsq -> lstsq [[0;0;1]] y3 = [2].
Proof.
  intros H. destruct (H 3%nat [[0;0;1]] y3 eq_refl) as [L M]; [inl|].
  destruct (lstsq _ _) as [|a [|]]; try discriminate L. specialize (M [2] eq_refl). cbn in M.
  destruct (@sq2 (2 - a) 0) as (? & ?); [ring_simplify in M; ring_simplify; lra|]. repeat (f_equal; try lra).
Qed.
Lemma li3_y : largest_indices y3 3 = [2;0;1]%nat. Proof. liq. Qed.
Lemma li3_y1 : largest_indices y3 1 = [2]%nat. Proof. liq. Qed.
Lemma li3_r : largest_indices [1/10;1/20;0] 2 = [0;1]%nat. Proof. liq. Qed.
Lemma li3_r1 : largest_indices [1/10;1/20;0] 1 = [0]%nat. Proof. liq. Qed.
Lemma li3_a : largest_indices [2;1/10;1/20] 1 = [0]%nat. Proof. liq. Qed.
Lemma li3_b : largest_indices [2;1/10] 1 = [0]%nat. Proof. liq. Qed.
Definition s3_inv (s : ps) : Prop := p_I s = [2]%nat /\ p_r s = [1/10;1/20;0].
Lemma s3_cor2 s : s3_inv s -> correlates I3d 2 s.
Proof.
  intros [E1 E2]. exists [0;1]%nat. split; [repeat constructor; cbn; intuition lia|]. split; [reflexivity|]. rewrite E1, E2, I3_n.
  intros j [<-|[<-|[]]]; (split; [lia|]; split; [cbn; intuition lia|]); atoms3; cbn; lra.
Qed.
Lemma s3_cor1 s : s3_inv s -> correlates I3d 1 s.
Proof.
  intros [E1 E2]. exists [0]%nat. split; [repeat constructor; cbn; intuition lia|]. split; [reflexivity|]. rewrite E1, E2, I3_n.
  intros j [<-|[]]; (split; [lia|]; split; [cbn; intuition lia|]); atoms3; cbn; lra.
Qed.
Lemma c3_run lstsq cond : least_squares_solver lstsq -> forall k s, reaches cond (cosamp_body lstsq I3d y3 1) (cosamp_init lstsq I3d y3 1) k s -> correlates I3d 2 s.
Proof.
  intros H k s E. apply s3_cor2. induction E as [|k s s' E IH C B].
  - unfold cosamp_init. rewrite I3_trans. cbn [Nat.mul Nat.add]. rewrite li3_y. cbn [map]. atoms3. rwl (ls3_a H). rewrite li3_a.
    cbn [pick map nth nsort fold_right ninsert Nat.leb gather]. unfold s3_inv, ps_make, synth. cbn [p_I p_x p_r length map]. atoms3. split; [reflexivity|]. cbn. leq.
  - destruct IH as [E1 E2]. unfold cosamp_body in B. injection B as <-. rewrite E1, E2, I3_trans.
    replace (zero_at [1/10;1/20;0] [2]%nat) with [1/10;1/20;0] by (cbn; leq). cbn [Nat.mul Nat.add]. rewrite li3_r. cbn [app map]. atoms3. rwl (ls3_a H). rewrite li3_a.
    cbn [pick map nth gather]. unfold s3_inv, ps_make, synth. cbn [p_I p_x p_r length map]. atoms3. split; [reflexivity|]. cbn. leq.
Qed.
Lemma s3_run lstsq cond : least_squares_solver lstsq -> forall k s, reaches cond (sp_body lstsq I3d y3 1) (sp_init lstsq I3d y3 1) k s -> correlates I3d 1 s.
Proof.
  intros H k s E. apply s3_cor1. induction E as [|k s s' E IH C B].
  - unfold sp_init. rewrite I3_trans, li3_y1. cbn [map]. atoms3. rwl (ls3_c H).
    unfold s3_inv, ps_make, synth. cbn [p_I p_x p_r length map]. atoms3. split; [reflexivity|]. cbn. leq.
  - destruct IH as [E1 E2]. unfold sp_body in B. injection B as <-. rewrite E1, E2, I3_trans.
    replace (zero_at [1/10;1/20;0] [2]%nat) with [1/10;1/20;0] by (cbn; leq). rewrite li3_r1. cbn [app map]. atoms3. rwl (ls3_b H). rewrite li3_b.
    cbn [pick map nth gather]. atoms3. rwl (ls3_c H). unfold s3_inv, ps_make, synth. cbn [p_I p_x p_r length map]. atoms3. split; [reflexivity|]. cbn. leq.
Qed.
