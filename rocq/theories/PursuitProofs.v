From Coq Require Import List Arith Bool Lia Reals Lra Permutation.
From Verif Require Import Scalar Vec RVec RMat Loop LoopLemmas OptSpec OptModel OptProofs OptProofs2 SortedL1Model SortedL1Proofs CGModel SlsModel SelModel SelSpec SelProofs DictModel DictSpec DictProofs SolverSpec CGProofs PursuitModel PursuitSpec.
Import ListNotations.
Set Implicit Arguments.
Local Open Scope R_scope.

(** *** linear combinations *)
Lemma lc_len m cs vs : (forall v, In v vs -> length v = m) -> length (lincomb m cs vs) = m.
Proof.
  revert vs. induction cs as [|c cs IH]; intros [|v vs] H; simpl; try apply rzero_len.
  rewrite radd_len, rscale_len, IH by (intros; apply H; now right). rewrite (H v) by now left. lia.
Qed.
Lemma lc_dot m w : forall cs vs, (forall v, In v vs -> length v = m) ->
  rdot (lincomb m cs vs) w = rdot cs (map (fun v => rdot v w) vs).
Proof.
  induction cs as [|c cs IH]; intros [|v vs] H; simpl; try apply rdot_zero_l.
  rewrite rdot_add_l, rdot_scale_l, IH; auto; [intros; apply H; now right|].
  rewrite rscale_len, lc_len by (intros; apply H; now right). apply H. now left.
Qed.
Lemma dot_ext x y : length x = length y -> (forall w, rdot x w = rdot y w) -> x = y.
Proof. intros L H. apply rdot_sub_eq0; auto. rewrite rdot_sub_l, H by auto. ring. Qed.
Lemma lc_add m cs ds vs : (forall v, In v vs -> length v = m) -> length cs = length ds ->
  lincomb m (radd cs ds) vs = radd (lincomb m cs vs) (lincomb m ds vs).
Proof.
  intros H L. apply dot_ext; [rewrite radd_len, !lc_len; auto; lia|].
  intros w. rewrite rdot_add_l by (rewrite !lc_len; auto). rewrite !lc_dot, rdot_add_l by auto. reflexivity.
Qed.
Lemma lc_sub m cs ds vs : (forall v, In v vs -> length v = m) -> length cs = length ds ->
  lincomb m (rsub cs ds) vs = rsub (lincomb m cs vs) (lincomb m ds vs).
Proof.
  intros H L. apply dot_ext; [rewrite rsub_len, !lc_len; auto; lia|].
  intros w. rewrite rdot_sub_l by (rewrite !lc_len; auto). rewrite !lc_dot, rdot_sub_l by auto. reflexivity.
Qed.
Lemma lc_scale m c cs vs : (forall v, In v vs -> length v = m) ->
  lincomb m (rscale c cs) vs = rscale c (lincomb m cs vs).
Proof.
  intros H. apply dot_ext; [rewrite rscale_len, !lc_len; auto|].
  intros w. now rewrite rdot_scale_l, !lc_dot, rdot_scale_l by auto.
Qed.
Lemma lc_zero m n vs : (forall v, In v vs -> length v = m) -> lincomb m (rzero n) vs = rzero m.
Proof.
  intros H. apply dot_ext; [rewrite rzero_len, !lc_len; auto|].
  intros w. now rewrite lc_dot, !rdot_zero_l by auto.
Qed.
Lemma lc_single m c v : length v = m -> lincomb m [c] [v] = rscale c v.
Proof. intros H. apply dot_ext; simpl; [rewrite radd_len, rscale_len, rzero_len; lia|]. intros w. rewrite rdot_add_l, rdot_zero_l by (rewrite rscale_len, rzero_len; auto). ring. Qed.
Lemma rdot_app x1 x2 y1 y2 : length x1 = length y1 -> rdot (x1 ++ x2) (y1 ++ y2) = rdot x1 y1 + rdot x2 y2.
Proof.
  revert y1. induction x1 as [|a x1 IH]; intros [|b y1] H; simpl in *; try discriminate; [ring|].
  rewrite IH by lia. ring.
Qed.
Lemma lc_app m c1 c2 v1 v2 : (forall v, In v (v1 ++ v2) -> length v = m) -> length c1 = length v1 ->
  lincomb m (c1 ++ c2) (v1 ++ v2) = radd (lincomb m c1 v1) (lincomb m c2 v2).
Proof.
  intros H L. assert (H1 : forall v, In v v1 -> length v = m) by (intros; apply H, in_or_app; now left).
  assert (H2 : forall v, In v v2 -> length v = m) by (intros; apply H, in_or_app; now right).
  apply dot_ext; [rewrite radd_len, !lc_len; auto; lia|].
  intros w. rewrite rdot_add_l by (rewrite !lc_len; auto). rewrite !lc_dot, map_app by auto.
  apply rdot_app. now rewrite map_length.
Qed.
(** *** scatter, gather and one-hot vectors *)
Lemma onehot_len n i : length (onehot n i) = n. Proof. apply tab_length. Qed.
Lemma onehot_nth n i j : (j < n)%nat -> (onehot n i)@j = if (j =? i)%nat then 1 else 0.
Proof. intros. unfold onehot. now rewrite nth_tab. Qed.
Lemma onehot_dot n i g : (i < n)%nat -> length g = n -> rdot (onehot n i) g = g@i.
Proof.
  intros Hi L. rewrite (@rdot_sum n) by (auto; apply onehot_len). rewrite (@rsum_single n i); auto.
  - rewrite onehot_nth, Nat.eqb_refl by auto. ring.
  - intros j Hj Hn. rewrite onehot_nth by auto. destruct (Nat.eqb_spec j i); [contradiction|ring].
Qed.
Lemma scatter_len n J x : length (scatter n J x) = n. Proof. apply tab_length. Qed.
Lemma scatter_get_notin J : forall x j, ~ In j J -> scatter_get J x j = 0.
Proof.
  induction J as [|i J IH]; intros [|a x] j H; simpl; auto.
  destruct (Nat.eqb_spec i j) as [->|]; [exfalso; apply H; now left|]. apply IH. intros C. apply H. now right.
Qed.
Lemma scatter_cons n i J a x : ~ In i J -> scatter n (i :: J) (a :: x) = radd (rscale a (onehot n i)) (scatter n J x).
Proof.
  intros H. apply vec_eq; [rewrite radd_len, rscale_len, onehot_len, !scatter_len; lia|].
  rewrite scatter_len. intros j Hj. rewrite radd_nth by (rewrite rscale_len, onehot_len, scatter_len; auto).
  rewrite rscale_nth, onehot_nth by auto. unfold scatter. rewrite !nth_tab by auto. cbn [scatter_get].
  rewrite (Nat.eqb_sym j i). destruct (Nat.eqb_spec i j) as [->|]; [rewrite scatter_get_notin by auto|]; ring.
Qed.
Lemma scatter_nil n x : scatter n [] x = rzero n.
Proof. apply vec_eq; [now rewrite scatter_len, rzero_len|]. rewrite scatter_len. intros i Hi. unfold scatter. rewrite nth_tab, rzero_nth by auto. destruct x; reflexivity. Qed.
Lemma scatter_dot n g J : length g = n -> forall x, NoDup J -> (forall i, In i J -> (i < n)%nat) -> length x = length J ->
  rdot (scatter n J x) g = rdot x (gather g J).
Proof.
  intros Lg. induction J as [|i J IH]; intros [|a x] ND HB L; try discriminate.
  - now rewrite scatter_nil, rdot_zero_l.
  - inversion ND as [|? ? Hni ND']; subst. rewrite scatter_cons by auto.
    rewrite rdot_add_l by (rewrite rscale_len, onehot_len, scatter_len; auto).
    rewrite rdot_scale_l, onehot_dot by (auto; apply HB; now left).
    simpl in L. rewrite IH by (auto; try lia; intros; apply HB; now right). reflexivity.
Qed.
Lemma scatter_sparse n J x : sparse (length J) (scatter n J x).
Proof.
  exists J. split; auto. intros i H. unfold scatter. destruct (Nat.lt_ge_cases i n).
  - rewrite nth_tab by auto. now apply scatter_get_notin.
  - apply nth_overflow. now rewrite tab_length.
Qed.
Lemma scatter_gather x J : (forall i, In i J -> (i < length x)%nat) -> scatter (length x) J (gather x J) = keep x J.
Proof.
  intros H. apply vec_eq; [now rewrite scatter_len, keep_len|]. rewrite scatter_len. intros j Hj.
  rewrite keep_nth by auto. unfold scatter. rewrite nth_tab by auto. clear H. induction J as [|i J IH]; cbn [gather map scatter_get]; auto.
  unfold mem. cbn [existsb]. rewrite (Nat.eqb_sym j i). destruct (Nat.eqb_spec i j) as [->|]; auto.
Qed.

(** *** dictionaries *)
Section D.
  Variables (m : nat) (D : dictionary).
  Hypothesis V : valid_dict m D.
  Lemma atom_len i : (i < d_n D)%nat -> length (d_atom D i) = m. Proof. apply V. Qed.
  Lemma trans_len r : length r = m -> length (d_trans D r) = d_n D. Proof. apply V. Qed.
  Lemma trans_nth r i : length r = m -> (i < d_n D)%nat -> (d_trans D r)@i = rdot (d_atom D i) r. Proof. apply V. Qed.
  Lemma atoms_len J : (forall i, In i J -> (i < d_n D)%nat) -> forall v, In v (map (d_atom D) J) -> length v = m.
  Proof. intros H v Hv. apply in_map_iff in Hv as [i [<- Hi]]. apply atom_len; auto. Qed.
  Lemma all_len v : In v (map (d_atom D) (seq 0 (d_n D))) -> length v = m.
  Proof. apply atoms_len. intros i Hi. apply in_seq in Hi. lia. Qed.
  Lemma gather_trans r J : length r = m -> (forall i, In i J -> (i < d_n D)%nat) ->
    gather (d_trans D r) J = map (fun v => rdot v r) (map (d_atom D) J).
  Proof. intros L H. unfold gather. rewrite map_map. apply map_ext_in. intros i Hi. apply trans_nth; auto. Qed.
  Lemma trans_map r : length r = m -> d_trans D r = map (fun v => rdot v r) (map (d_atom D) (seq 0 (d_n D))).
  Proof.
    intros L. rewrite <- gather_trans by (auto; intros i Hi; apply in_seq in Hi; lia).
    unfold gather. rewrite <- (trans_len r L). symmetry. apply tab_nth.
  Qed.
  Lemma trans_lin_sub r s : length r = m -> length s = m -> d_trans D (rsub r s) = rsub (d_trans D r) (d_trans D s).
  Proof.
    intros Lr Ls. apply vec_eq; [rewrite rsub_len, !trans_len; auto; try lia; rewrite rsub_len; lia|].
    rewrite trans_len by (rewrite rsub_len; lia). intros i Hi.
    rewrite rsub_nth by (now rewrite !trans_len). rewrite !trans_nth by (auto; rewrite rsub_len; lia).
    apply rdot_sub_r. lia.
  Qed.
  Lemma combine_len x : length (combine_atoms m D x) = m.
  Proof. apply lc_len, all_len. Qed.
  Lemma combine_adj x r : length r = m -> rdot (combine_atoms m D x) r = rdot x (d_trans D r).
  Proof. intros L. unfold combine_atoms. rewrite lc_dot by apply all_len. now rewrite trans_map. Qed.
  Lemma synth_len J x : (forall i, In i J -> (i < d_n D)%nat) -> length (combine_on m D J x) = m.
  Proof. intros. now apply lc_len, atoms_len. Qed.
  Lemma synth_adj J x r : length r = m -> (forall i, In i J -> (i < d_n D)%nat) ->
    rdot (combine_on m D J x) r = rdot x (gather (d_trans D r) J).
  Proof. intros L H. unfold combine_on. rewrite lc_dot by (now apply atoms_len). now rewrite gather_trans. Qed.
  Lemma len_ext x y : length x = m -> length y = m -> (forall r, length r = m -> rdot x r = rdot y r) -> x = y.
  Proof. intros Lx Ly H. apply rdot_sub_eq0; [congruence|]. rewrite rdot_sub_l, H by (try congruence; rewrite rsub_len; lia). ring. Qed.
  Lemma combine_scatter J x : NoDup J -> (forall i, In i J -> (i < d_n D)%nat) -> length x = length J ->
    combine_atoms m D (scatter (d_n D) J x) = combine_on m D J x.
  Proof.
    intros ND HB L. apply len_ext; [apply combine_len|now apply synth_len|].
    intros r Lr. rewrite combine_adj, synth_adj by auto. apply scatter_dot; auto. now apply trans_len.
  Qed.
  Lemma combine_onehot i : (i < d_n D)%nat -> combine_atoms m D (onehot (d_n D) i) = d_atom D i.
  Proof.
    intros Hi. apply len_ext; [apply combine_len|now apply atom_len|]. intros r Lr.
    rewrite combine_adj by auto. rewrite onehot_dot by (auto; now apply trans_len). now apply trans_nth.
  Qed.
  Lemma combine_add x z : length x = length z -> combine_atoms m D (radd x z) = radd (combine_atoms m D x) (combine_atoms m D z).
  Proof. intros. apply lc_add; auto. apply all_len. Qed.
  Lemma combine_sub x z : length x = length z -> combine_atoms m D (rsub x z) = rsub (combine_atoms m D x) (combine_atoms m D z).
  Proof. intros. apply lc_sub; auto. apply all_len. Qed.
  Lemma combine_scale c x : combine_atoms m D (rscale c x) = rscale c (combine_atoms m D x).
  Proof. apply lc_scale. apply all_len. Qed.
  Lemma combine_zero : combine_atoms m D (rzero (d_n D)) = rzero m.
  Proof. apply lc_zero. apply all_len. Qed.
  Lemma combine_linear : linear_op (d_n D) m (combine_atoms m D).
  Proof. split; [intros; apply combine_len|]. split; [intros; apply combine_add; congruence|intros; apply combine_scale]. Qed.
End D.

Lemma matrix_dict_valid m n Phi : shape m n Phi -> (0 < m)%nat -> valid_dict m (matrix_dict Phi) /\ d_n (matrix_dict Phi) = n.
Proof.
  intros S Hm. pose proof (ncols_shape S Hm) as E. destruct S as [L R].
  split; [|exact E]. cbn [matrix_dict d_n d_atom d_trans]. unfold valid_dict. cbn [matrix_dict d_n d_atom d_trans]. rewrite E.
  split; [intros; now rewrite col_len|]. split.
  - intros r Lr. now apply mtv_len.
  - intros r i Lr Hi. rewrite <- (@onehot_dot n i (mtv n Phi r)) by (auto; now apply mtv_len).
    rewrite <- mv_adj; auto; [|apply onehot_len|congruence]. f_equal. unfold mv, col. apply map_ext_in. intros a Ha.
    rewrite rdot_sym. apply onehot_dot; auto.
Qed.
Lemma matrix_dict_combine m n Phi x : shape m n Phi -> (0 < m)%nat -> length x = n -> combine_atoms m (matrix_dict Phi) x = mv Phi x.
Proof.
  intros S Hm Lx. destruct (matrix_dict_valid S Hm) as [V E].
  apply (@len_ext m); [now apply combine_len|rewrite mv_len; apply S|].
  intros r Lr. rewrite combine_adj by auto. cbn [matrix_dict d_trans]. rewrite (ncols_shape S Hm).
  symmetry. destruct S as [L R]. apply mv_adj; auto. congruence.
Qed.
Lemma operator_dict_valid n m A : adjoint_ops n m (so_times A) (so_trans A) -> valid_dict m (operator_dict n A).
Proof.
  intros (L1 & L2 & Adj). unfold valid_dict, operator_dict. cbn [d_n d_atom d_trans]. split; [|split].
  - intros i Hi. apply L1, onehot_len.
  - intros r Lr. now apply L2.
  - intros r i Lr Hi. rewrite Adj by (auto; apply onehot_len). symmetry. apply onehot_dot; auto. now apply L2.
Qed.
Lemma operator_dict_combine n m A x : adjoint_ops n m (so_times A) (so_trans A) -> length x = n ->
  combine_atoms m (operator_dict n A) x = so_times A x.
Proof.
  intros H Lx. pose proof (@operator_dict_valid n m A H) as V. destruct H as (L1 & L2 & Adj).
  apply (@len_ext m); [now apply combine_len|now apply L1|].
  intros r Lr. rewrite combine_adj by auto. cbn [operator_dict d_trans]. symmetry. apply Adj; auto.
Qed.

(** *** matching pursuit *)
Lemma add_at_eq x i c : add_at x i c = radd x (rscale c (onehot (length x) i)).
Proof.
  unfold add_at. apply vec_eq; [rewrite tab_length, radd_len, rscale_len, onehot_len; lia|].
  rewrite tab_length. intros j Hj. rewrite nth_tab, radd_nth, rscale_nth, onehot_nth by (auto; rewrite rscale_len, onehot_len; auto).
  destruct (j =? i)%nat; ring.
Qed.
Section MP.
  Variables (m : nat) (D : dictionary) (y : vec) (max_iters : nat) (rtol : R).
  Hypothesis V : valid_dict m D.
  Hypothesis Ly : length y = m.
  Hypothesis Hn : (0 < d_n D)%nat.
  Definition mp_inv (s : mp_state) : Prop :=
    length (mp_x s) = d_n D /\ length (mp_r s) = m /\ mp_r s = rsub y (combine_atoms m D (mp_x s)) /\ mp_rn s = rdot y y.
  Lemma mp_inv_init : mp_inv (mp_init D y).
  Proof.
    unfold mp_inv, mp_init. cbn [mp_x mp_r mp_rn]. rewrite rzero_len. repeat split; auto.
    rewrite combine_zero by auto. veq.
  Qed.
  Lemma best_lt r : length r = m -> (argmax (map Rabs (d_trans D r)) < d_n D)%nat.
  Proof.
    intros Lr. rewrite <- (trans_len V r Lr), <- (map_length Rabs). apply argmax_spec.
    intros C. apply (f_equal (@length R)) in C. rewrite map_length, (trans_len V) in C by auto. simpl in C. lia.
  Qed.
  Lemma best_max r i : length r = m -> (i < d_n D)%nat ->
    Rabs (rdot (d_atom D i) r) <= Rabs (rdot (d_atom D (argmax (map Rabs (d_trans D r)))) r).
  Proof.
    intros Lr Hi. assert (NE : d_trans D r <> []).
    { intros C. apply (f_equal (@length R)) in C. rewrite (trans_len V) in C by auto. simpl in C. lia. }
    destruct (abs_max_spec NE) as [H1 H2]. specialize (H2 i). unfold abs_max_idx in *.
    rewrite !(trans_nth V) in H2; auto. now apply best_lt.
  Qed.
  Lemma mp_inv_step s s' : mp_inv s -> mp_body D y s = Some s' -> mp_inv s'.
  Proof.
    unfold mp_inv, mp_body. intros (L1 & L2 & E & Rn) [= <-]. cbn [mp_x mp_r mp_rn].
    set (i := argmax _). set (c := (d_trans D (mp_r s))@i).
    assert (Hi : (i < d_n D)%nat) by (now apply best_lt).
    pose proof (atom_len V Hi) as La. rewrite add_at_eq, L1.
    assert (L3 : length (radd (mp_x s) (rscale c (onehot (d_n D) i))) = d_n D) by (rewrite radd_len, rscale_len, onehot_len; lia).
    repeat split; auto; [rewrite rsub_len, rscale_len; lia|].
    rewrite (combine_add V) by (rewrite rscale_len, onehot_len; auto). rewrite (combine_scale V), (combine_onehot V) by auto.
    rewrite E. pose proof (combine_len V (mp_x s)) as Lc. veq.
  Qed.
  Lemma mp_reach k s : reaches (mp_cond y max_iters rtol) (mp_body D y) (mp_init D y) k s ->
    mp_inv s /\ mp_it s = k /\ (k <= max_iters)%nat.
  Proof.
    induction 1 as [|k s s' H (IH & E & Le) C B]; [repeat split; try apply mp_inv_init; lia|].
    split; [now apply (mp_inv_step IH)|]. unfold mp_cond in C. apply andb_true_iff in C as [_ C]. apply Nat.ltb_lt in C.
    unfold mp_body in B. injection B as <-. cbn [mp_it]. lia.
  Qed.
  Lemma mp_energy s s' : (forall i, (i < d_n D)%nat -> nrm2 (d_atom D i) = 1) -> mp_inv s -> mp_body D y s = Some s' ->
    exists i, (i < d_n D)%nat /\ (forall j, (j < d_n D)%nat -> Rabs (rdot (d_atom D j) (mp_r s)) <= Rabs (rdot (d_atom D i) (mp_r s))) /\
      mp_x s' = add_at (mp_x s) i (rdot (d_atom D i) (mp_r s)) /\
      nrm2 (mp_r s') = nrm2 (mp_r s) - rdot (d_atom D i) (mp_r s) * rdot (d_atom D i) (mp_r s).
  Proof.
    intros U (L1 & L2 & E & Rn) B. unfold mp_body in B. injection B as <-. cbn [mp_x mp_r].
    exists (argmax (map Rabs (d_trans D (mp_r s)))). pose proof (best_lt _ L2) as Hi.
    split; auto. split; [intros; now apply best_max|].
    rewrite (trans_nth V) by auto. split; auto. set (i := argmax _) in *. set (c := rdot (d_atom D i) (mp_r s)).
    pose proof (atom_len V Hi) as La. unfold nrm2. rewrite rdot_sub_l, !rdot_sub_r, !rdot_scale_l, !rdot_scale_r by (rewrite rscale_len; lia).
    rewrite (rdot_sym (mp_r s) (d_atom D i)). fold c. specialize (U i Hi). unfold nrm2 in U. rewrite U. ring.
  Qed.
  Lemma mp_decay k s c : (forall i, (i < d_n D)%nat -> nrm2 (d_atom D i) = 1) -> 
    (forall r, length r = m -> exists i, (i < d_n D)%nat /\ c * nrm2 r <= rdot (d_atom D i) r * rdot (d_atom D i) r) -> c <= 1 ->
    reaches (mp_cond y max_iters rtol) (mp_body D y) (mp_init D y) k s -> nrm2 (mp_r s) <= (1 - c) ^ k * nrm2 y.
  Proof.
    intros U Hc C1. induction 1 as [|k s s' H IH C B]; [cbn [mp_init mp_r pow]; lra|].
    destruct (mp_reach H) as (Inv & _). destruct (mp_energy U Inv B) as (i & Hi & Mx & _ & E). rewrite E.
    destruct (Hc (mp_r s)) as (j & Hj & Hj2); [apply Inv|]. specialize (Mx j Hj).
    set (a := rdot (d_atom D i) (mp_r s)) in *. set (b := rdot (d_atom D j) (mp_r s)) in *.
    assert (b * b <= a * a).
    { rewrite <- (Rabs_right (b * b)), <- (Rabs_right (a * a)) by (apply Rle_ge, Rle_0_sqr). rewrite !Rabs_mult. apply Rmult_le_compat; auto; apply Rabs_pos. }
    cbn [pow]. apply Rle_trans with ((1 - c) * nrm2 (mp_r s)); [lra|]. rewrite Rmult_assoc. apply Rmult_le_compat_l; lra.
  Qed.
  Lemma mp_total fuel : (max_iters <= fuel)%nat -> exists s, mp D y max_iters rtol fuel = Done s.
  Proof.
    intros HF. unfold mp. apply while_total; [discriminate|]. intros k s H C. destruct (mp_reach H) as (_ & E & _).
    unfold mp_cond in C. apply andb_true_iff in C as [_ C]. apply Nat.ltb_lt in C. lia.
  Qed.
  (** the tolerance never stops the loop *)
  Lemma mp_never_stops s fuel : 0 < nrm2 y -> -1 < rtol < 1 -> mp D y max_iters rtol fuel = Done s ->
    mp_it s = max_iters /\ mp_rn s = nrm2 y.
  Proof.
    intros Hy Hr H. apply while_done in H as [k (_ & Rk & C)]. destruct (mp_reach Rk) as ((_ & _ & _ & Rn) & E & Le).
    split; [|exact Rn]. unfold mp_cond in C. rewrite Rn in C. apply andb_false_iff in C as [C|C].
    - exfalso. destruct (Rltb_spec (rdot y y * rtol ^ 2) (rdot y y)) as [|N]; [discriminate|]. apply N.
      unfold nrm2 in Hy. assert (rtol ^ 2 < 1) by (simpl; nra). nra.
    - apply Nat.ltb_ge in C. lia.
  Qed.
End MP.
