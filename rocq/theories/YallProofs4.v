From Coq Require Import List Arith Bool Lia Reals Lra Psatz.
From Verif Require Import Vec RVec RMat Loop LoopLemmas XReal SolverSpec SolverLemmas OptProofs FomProofs2 SpglProofs SpglProofs3 SpglProofs4 YallModel YallSpec YallProofs YallProofs2 YallProofs3.
Import ListNotations.
Set Implicit Arguments.
Local Open Scope R_scope.

(** *** scaling the data by c and the solution back *)
Lemma nrm1_scale c x : nrm1 (rscale c x) = Rabs c * nrm1 x.
Proof.
  rewrite (@nrm1_sum (length x) (rscale c x)), (@nrm1_sum (length x) x) by vl. rewrite <- rsum_mul_l. apply rsum_ext. intros i Hi. rewrite rscale_nth. apply Rabs_mult.
Qed.
Lemma nrminf_zero n : nrminf (rzero n) = 0.
Proof. induction n as [|n IH]; cbn; [auto|]. fold (rzero n). rewrite IH, Rabs_R0. apply Rmax_left. lra. Qed.
Lemma wnorm_scale w x c : 0 <= c -> wnorm w (rscale c x) = c * wnorm w x.
Proof.
  intros Hc. unfold wnorm. replace (rmul w (rscale c x)) with (rscale c (rmul w x)); [now rewrite nrm1_scale, Rabs_pos_eq|].
  unfold rmul, rscale. revert x. induction w as [|a w' IH]; intros [|d x]; cbn; auto. f_equal; [ring|apply IH].
Qed.
Lemma rescaling n m A b w nonneg p x c : linear_op n m A -> length b = m -> problem_ok p -> 0 < c ->
  yall_solves n A (rscale (/ c) b) w nonneg (scale_problem c p) x -> yall_solves n A b w nonneg p (rscale c x).
Proof.
  intros [LA [_ AS]] Lb P Hc (Cx & Fx & O). assert (Hi : 0 < / c) by now apply Rinv_0_lt_compat.
  assert (CS : forall d v, 0 < d -> candidate n nonneg v -> candidate n nonneg (rscale d v)).
  { intros d v Hd [Lv Cv]. split; [vl|]. intros E i Hi'. rewrite rscale_nth. apply Rmult_le_pos; [lra|auto]. }
  assert (R : forall v, length v = n -> rsub (rscale (/ c) b) (A (rscale (/ c) v)) = rscale (/ c) (rsub b (A v))).
  { intros v Lv. rewrite AS by auto. assert (L := LA v Lv). veq. }
  assert (Ni : forall v, nrm (rscale (/ c) v) = / c * nrm v) by (intros; rewrite nrm_scale, Rabs_pos_eq; lra).
  assert (FS : forall v, candidate n nonneg v -> (yall_feasible A b p v <-> yall_feasible A (rscale (/ c) b) (scale_problem c p) (rscale (/ c) v))).
  { intros v [Lv _]. specialize (R v Lv). assert (L := LA v Lv). destruct p as [|rho|delta]; cbn; [| tauto |].
    - rewrite AS by auto. split; [now intros ->|]. intros E. apply (f_equal (rscale c)) in E.
      transitivity (rscale c (rscale (/ c) (A v))); [|rewrite E]; apply vec_eq; try vl; intros i Hi'; rewrite !rscale_nth; field; lra.
    - rewrite R, Ni. unfold Rdiv. split; intros H; [rewrite Rmult_comm; apply Rmult_le_compat_r; lra|].
      apply Rmult_le_compat_l with (r := c) in H; [|lra]. rewrite <- Rmult_assoc, Rinv_r, Rmult_1_l in H by lra. replace (c * (delta * / c)) with delta in H by (field; lra). auto. }
  assert (VS : forall v, length v = n -> yall_value A (rscale (/ c) b) w (scale_problem c p) (rscale (/ c) v) = / c * yall_value A b w p v).
  { intros v Lv. specialize (R v Lv). unfold yall_value. destruct p as [|rho|delta]; cbn -[wnorm] in *; rewrite wnorm_scale by lra; auto.
    rewrite R. unfold nrm2. rewrite rdot_scale_l, rdot_scale_r. field. lra. }
  assert (E : rscale (/ c) (rscale c x) = x).
  { apply vec_eq; [vl|]. intros i Hi'. rewrite !rscale_nth. field. lra. }
  split; [now apply CS|]. split.
  - apply FS; [now apply CS|]. now rewrite E.
  - intros v Cv Fv. specialize (O (rscale (/ c) v) (CS _ _ Hi Cv) (proj1 (FS v Cv) Fv)).
    rewrite VS in O by (destruct Cv; auto). rewrite <- E in O. rewrite VS in O by (destruct Cx; vl).
    apply Rmult_le_compat_l with (r := c) in O; [|lra]. rewrite <- !Rmult_assoc, Rinv_r, !Rmult_1_l in O by lra. auto.
Qed.

(** *** the zero solution shortcut *)
Lemma zero_value_l1 n m A T b w nonneg rho : adjoint_ops n m A T -> length b = m -> length w = n -> (forall i, (i < n)%nat -> 1 <= w@i) ->
  0 < rho -> nrminf (T b) <= rho -> yall_solves n A b w nonneg (L1L2 rho) (rzero n).
Proof.
  intros Adj Lb Lw Hw Hr Hz. assert (LTb := LT Adj b Lb).
  apply (@kkt_solves n m A T b w nonneg (L1L2 rho) Adj Lb Lw ltac:(intros i Hi; specialize (Hw i Hi); lra) Hr (rzero n) (rscale (/ rho) b)).
  pose proof Adj as [LAd [LTd _]]. destruct LTd as [_ [_ TS]].
  split; [vl|]. split; [vl|]. rewrite TS by auto. split; [|split].
  - split; [vl|]. intros i Hi. rewrite rscale_nth. assert (Q : Rabs ((T b)@i) <= rho) by (eapply Rle_trans; [apply nrminf_ge|auto]).
    assert (Q2 : Rabs (/ rho * (T b)@i) <= 1). { rewrite Rabs_mult, (Rabs_pos_eq (/ rho)) by (left; now apply Rinv_0_lt_compat).
      apply Rmult_le_reg_l with rho; auto. rewrite <- Rmult_assoc, Rinv_r; lra. }
    specialize (Hw i Hi). pose proof (Rle_abs (/ rho * (T b)@i)). destruct nonneg; lra.
  - intros v _. rewrite !rdot_zero_l. lra.
  - rewrite (linear_zero LAd). apply vec_eq; [vl|]. intros i Hi. unfold rzero. rewrite nth_repeat_same, rsub_nth, !rscale_nth by vl. field. lra.
Qed.
Lemma zero_value_con n m A b w nonneg delta : linear_op n m A -> length b = m ->
  nrm b <= delta -> yall_solves n A b w nonneg (L1L2con delta) (rzero n).
Proof.
  intros LAd Lb Hd. split; [split; [vl|]; intros _ i Hi; unfold rzero; rewrite nth_repeat_same; lra|]. cbn. rewrite (linear_zero LAd).
  replace (rsub b (rzero m)) with b by veq. split; auto. intros v _ _. unfold wnorm. replace (rmul w (rzero n)) with (rzero (Nat.min (length w) n)).
  - replace (nrm1 (rzero (Nat.min (length w) n))) with 0; [apply nrm1_pos|]. symmetry. apply nrm1_zero.
  - unfold rmul, rzero. clear. revert n. induction w as [|a w' IH]; intros [|n]; cbn; auto. f_equal; [ring|apply IH].
Qed.

(** *** the solver *)
Section Solve.
  Variables (n m : nat) (A T : vec -> vec) (b : vec) (W : option ((vec -> vec) * (vec -> vec))) (weights : option vec) (x0 z0 : option vec).
  Variables (nonneg : bool) (rho delta gamma tolerance : R) (max_iters fuel : nat).
  Hypothesis Adj : adjoint_ops n m A T.
  Hypothesis HW : match W with None => True | Some (wt, wa) => adjoint_ops n n wt wa end.
  Hypothesis Lb : length b = m.
  Hypothesis Lws : match weights with None => True | Some ws => length ws = n /\ forall i, (i < n)%nat -> 0 < ws@i end.
  Hypothesis Lx0 : match x0 with None => True | Some x => length x = n end.
  Hypothesis Lz0 : match z0 with None => True | Some z => length z = n end.
  Notation A' := (fst (with_basis A T W)).
  Notation T' := (snd (with_basis A T W)).
  Notation w := (match weights with None => repeat 1 n | Some ws => rmul (repeat 1 n) ws end).
  Lemma basis_adj : adjoint_ops n m A' T'.
  Proof.
    unfold with_basis. destruct W as [[wt wa]|]; cbn; auto. destruct Adj as [[a1 [a2 a3]] [[t1 [t2 t3]] ad]], HW as [[b1 [b2 b3]] [[c1 [c2 c3]] bd]].
    split; [|split].
    - split; [auto|]. split; intros; [rewrite b2, a2|rewrite b3, a3]; auto.
    - split; [auto|]. split; intros; [rewrite t2, c2|rewrite t3, c3]; auto.
    - intros x y Lx Ly. rewrite ad, bd; auto.
  Qed.
  Lemma weights_ok : length w = n /\ forall i, (i < n)%nat -> 0 < w@i.
  Proof.
    destruct weights as [ws|].
    - destruct Lws as [L Pw]. split; [rewrite rmul_len, repeat_length; lia|]. intros i Hi. rewrite rmul_nth by (rewrite repeat_length; lia). rewrite nth_repeat by auto. specialize (Pw i Hi). lra.
    - split; [apply repeat_length|]. intros i Hi. rewrite nth_repeat by auto. lra.
  Qed.
  Definition scaled_problem : yall_problem := if Rltb 0 rho then L1L2 (rho / nrminf b) else if Rltb 0 delta then L1L2con (delta / nrminf b) else BP.
  Definition start_x : vec := match x0 with None => rscale (/ nrminf b) (T' b) | Some x => x end.
  Definition start_z : vec := match z0 with None => rzero n | Some z => z end.
  Notation solve := (yall1_solve A T b x0 z0 W weights nonneg rho delta gamma tolerance max_iters fuel).
  Notation run := (ya_run A' T' (rscale (/ nrminf b) b) w nonneg gamma tolerance max_iters scaled_problem start_x start_z fuel).
  Lemma start_len : length start_x = n /\ length start_z = n.
  Proof.
    unfold start_x, start_z. destruct basis_adj as [_ [[t1 _] _]]. split; [destruct x0; auto; rewrite rscale_len; auto|]. destruct z0; auto. vl.
  Qed.
  Lemma problem_scaled_ok : 0 < nrminf b -> problem_ok scaled_problem.
  Proof. intros H. unfold scaled_problem. destruct (Rltb_spec 0 rho); [|destruct (Rltb_spec 0 delta)]; cbn; auto; now apply Rdiv_lt_0_compat. Qed.
  Definition finish (s : yall_state) : yall_solution :=
    let x := if nonneg then map (Rmax 0) (ya_x s) else ya_x s in
    let x := match W with None => x | Some (wt, _) => wt x end in
    YallSolution (rscale (nrminf b) x) (rscale (nrminf b) (ya_rp s)) (ya_iterations s) (ya_n_times s + 0) (ya_n_trans s + 1).
  Lemma solve_eq : solve = if yall1_zero_solution T' b rho delta then Done (YallSolution (rzero n) b 0 0 1) else
    if Reqb (nrminf b) 0 then Fail else match run with Done s => Done (finish s) | Fail => Fail | Fuel => Fuel end.
  Proof.
    unfold yall1_solve. destruct basis_adj as [_ [[t1 _] _]]. destruct (with_basis A T W) as [A1 T1] eqn:E. cbn [fst snd] in *. cbv zeta.
    rewrite (t1 b Lb). destruct (yall1_zero_solution T1 b rho delta); auto. destruct (Reqb (nrminf b) 0); auto. unfold start_x, start_z, scaled_problem, finish. rewrite E. cbn [fst snd]. reflexivity.
  Qed.
  Lemma b_scaled_nz : nrminf b <> 0 -> rscale (/ nrminf b) b <> rzero m /\ 0 < nrminf b.
  Proof.
    intros N. pose proof (nrminf_pos b). split; [|lra]. intros E. apply N.
    assert (Z : b = rzero m).
    { apply (f_equal (rscale (nrminf b))) in E. transitivity (rscale (nrminf b) (rscale (/ nrminf b) b)).
      - apply vec_eq; [vl|]. intros i Hi. rewrite !rscale_nth. field. auto.
      - rewrite E. veq. }
    rewrite Z. apply nrminf_zero.
  Qed.
  Lemma solve_total : b <> rzero m -> (max_iters <= fuel)%nat -> exists sol, solve = Done sol.
  Proof.
    intros N Hf. rewrite solve_eq. destruct (yall1_zero_solution _ _ _ _); [eauto|].
    destruct (Reqb_spec (nrminf b) 0) as [E|E].
    - exfalso. apply N. apply vec_eq; [vl|]. intros i Hi. unfold rzero. rewrite nth_repeat_same. pose proof (@nrminf_ge b i) as Q. rewrite E in Q.
      pose proof (Rabs_pos (b@i)). destruct (Req_dec (b@i) 0) as [Z|Z]; auto. apply Rabs_no_R0 in Z. lra.
    - destruct (b_scaled_nz E) as [Nb Pb]. destruct weights_ok as [Lw Pw]. destruct start_len as [L1 L2].
      destruct (@run_total n m A' T' (rscale (/ nrminf b) b) w nonneg gamma tolerance max_iters scaled_problem basis_adj ltac:(vl) Lw ltac:(intros; left; auto) (problem_scaled_ok Pb) start_x start_z fuel L1 L2 Pw Nb Hf) as [s Es].
      rewrite Es. eauto.
  Qed.
  Lemma solve_done sol : solve = Done sol ->
    (yall1_zero_solution T' b rho delta = true /\ sol = YallSolution (rzero n) b 0 0 1) \/
    (yall1_zero_solution T' b rho delta = false /\ 0 < nrminf b /\ exists s, run = Done s /\ sol = finish s).
  Proof.
    rewrite solve_eq. destruct (yall1_zero_solution _ _ _ _); [intros [= <-]; auto|]. destruct (Reqb_spec (nrminf b) 0) as [E|E]; [discriminate|].
    destruct (b_scaled_nz E) as [_ Pb]. destruct run as [s| |] eqn:Es; try discriminate. intros [= <-]. right. repeat (split; [auto|]). eauto.
  Qed.
  Lemma clip_noop x : (forall i, (i < length x)%nat -> 0 <= x@i) -> map (Rmax 0) x = x.
  Proof.
    intros H. apply vec_eq; [apply map_length|]. intros i Hi. rewrite map_length in Hi. rewrite (nth_indep _ 0 (Rmax 0 0)) by (rewrite map_length; lia).
    rewrite (map_nth (Rmax 0)). apply Rmax_right. auto.
  Qed.
  Lemma solve_state sol : solve = Done sol ->
    Nat.even (ys_iterations sol) = true /\ (ys_iterations sol <= max_iters + 1)%nat /\
    length (ys_x sol) = n /\
    ((nonneg = false \/ (gamma = 1 /\ (0 < ys_iterations sol)%nat)) -> ys_r sol = rsub b (A (ys_x sol))) /\
    (nonneg = true -> W = None -> forall i, (i < n)%nat -> 0 <= (ys_x sol)@i) /\
    ((ys_n_times sol = 0 /\ ys_n_trans sol = 1 /\ ys_iterations sol = 0)%nat \/
     (ys_n_times sol = 1 + 2 * ys_iterations sol /\ ys_n_trans sol = 2 + ys_iterations sol)%nat).
  Proof.
    intros E. pose proof Adj as [LAd _]. destruct (solve_done E) as [[_ ->]|[_ [Pb [s [Es ->]]]]].
    - cbn [ys_iterations ys_r ys_x ys_n_times ys_n_trans]. repeat (split; [solve [auto | lia | vl]|]). split; [|split; auto].
      + intros _. rewrite (linear_zero LAd). veq.
      + intros _ _ i Hi. unfold rzero. rewrite nth_repeat_same. lra.
    - destruct weights_ok as [Lw Pw]. destruct start_len as [L1 L2].
      assert (Pw' : forall i, (i < n)%nat -> 0 <= w@i) by (intros; left; auto).
      assert (Lsb : length (rscale (/ nrminf b) b) = m) by vl.
      destruct (@run_done n m A' T' (rscale (/ nrminf b) b) w nonneg gamma tolerance max_iters scaled_problem basis_adj Lsb Lw Pw' (problem_scaled_ok Pb) start_x start_z fuel s L1 L2 Es)
        as (k & (Lx & Lz & Erp & _ & Ei & Et & Er & HC & HN) & Hc & Hk).
      unfold finish. cbn [ys_iterations ys_r ys_x ys_n_times ys_n_trans]. rewrite Ei.
      split; [rewrite Nat.even_mul; auto|]. split; [lia|].
      assert (Lx' : length (if nonneg then map (Rmax 0) (ya_x s) else ya_x s) = n) by (destruct nonneg; rewrite ?map_length; auto).
      split; [|split; [|split]].
      + rewrite rscale_len. destruct W as [[wt wa]|]; auto. destruct HW as [[L _] _]. auto.
      + intros Hn. assert (Ex : (if nonneg then map (Rmax 0) (ya_x s) else ya_x s) = ya_x s).
        { destruct nonneg; auto. destruct Hn as [Hn|[G Hi]]; [discriminate|]. apply clip_noop. intros i Hi'.
          destruct (HN ltac:(lia) G) as [Cz N]. destruct (@normal_cone n true w Lw Pw' (ya_x s) (ya_z s) Lx Cz N) as [[_ Cx] _]. apply Cx; auto. lia. }
        rewrite Ex. rewrite Erp. destruct LAd as [LA_ [_ AS]].
        replace (A (rscale (nrminf b) (match W with None => ya_x s | Some (wt, _) => wt (ya_x s) end))) with (rscale (nrminf b) (A' (ya_x s))).
        * assert (LL := LA basis_adj (ya_x s) Lx). apply vec_eq; [vl|]. intros i Hi. rewrite !rscale_nth, !rsub_nth, !rscale_nth by vl. field. lra.
        * unfold with_basis. destruct W as [[wt wa]|]; cbn; [|now rewrite AS]. destruct HW as [[L _] _]. now rewrite AS by auto.
      + intros -> HWn i Hi. rewrite HWn. rewrite rscale_nth. apply Rmult_le_pos; [lra|]. rewrite (nth_indep _ 0 (Rmax 0 0)) by (rewrite map_length; lia). rewrite (map_nth (Rmax 0)). apply Rmax_l.
      + right. lia.
  Qed.
End Solve.
