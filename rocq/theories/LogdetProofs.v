(** The log det function is convex and its gradient is -q X^-1 + C. *)
From Coq Require Import List Arith Bool Lia Reals Lra Psatz.
From Verif Require Import Vec RVec Loop BsblModel SolverSpec LogdetModel LogdetSpec.
Local Open Scope R_scope.

Definition dl (i j : nat) : R := if Nat.eqb i j then 1 else 0.
Lemma dl_sum n i (f : nat -> R) : (i < n)%nat -> rsum n (fun j => dl i j * f j) = f i.
Proof.
  intros Hi. rewrite (@rsum_single n i); auto.
  - unfold dl. rewrite Nat.eqb_refl. ring.
  - intros j Hj Hne. unfold dl. destruct (Nat.eqb_spec i j); [lia|ring].
Qed.
Lemma rsum_cs n f g : rsum n (fun i => f i * g i) * rsum n (fun i => f i * g i) <= rsum n (fun i => f i * f i) * rsum n (fun i => g i * g i).
Proof.
  pose proof (cauchy_sq (tab n f) (tab n g)) as H. unfold nrm2 in H. rewrite !(@rdot_sum n) in H by apply tab_length.
  rewrite (rsum_ext (fun i => (tab n f)@i * (tab n g)@i) (fun i => f i * g i)) in H by (intros; now rewrite !nth_tab).
  rewrite (rsum_ext (fun i => (tab n f)@i * (tab n f)@i) (fun i => f i * f i)) in H by (intros; now rewrite !nth_tab).
  rewrite (rsum_ext (fun i => (tab n g)@i * (tab n g)@i) (fun i => g i * g i)) in H by (intros; now rewrite !nth_tab).
  exact H.
Qed.
Lemma prod_sums m n f g : rsum m f * rsum n g = rsum m (fun i => rsum n (fun j => f i * g j)).
Proof. rewrite <- rsum_mul_r. apply rsum_ext. intros i Hi. now rewrite rsum_mul_l. Qed.

Section One.
  Variables (n : nat) (X L Xi : fmat).
  Hypothesis HL : is_cholesky n X L.
  Hypothesis HI : is_inverse n X Xi.
  Definition Z (k j : nat) : R := rsum n (fun a => L a k * Xi a j).
  Lemma LZ i j : (i < n)%nat -> (j < n)%nat -> rsum n (fun k => L i k * Z k j) = dl i j.
  Proof.
    intros Hi Hj. unfold dl. rewrite <- (HI i j Hi Hj). unfold Z.
    rewrite (rsum_ext _ (fun k => rsum n (fun a => L i k * L a k * Xi a j))) by (intros; rewrite <- rsum_mul_l; apply rsum_ext; intros; ring).
    rewrite rsum_exchange. apply rsum_ext. intros a Ha. rewrite rsum_mul_r. destruct HL as [_ [_ E]]. now rewrite E.
  Qed.
  Lemma Z_upper i j : (i < j)%nat -> (j < n)%nat -> Z i j = 0.
  Proof.
    revert j. induction i as [i IH] using lt_wf_ind. intros j Hij Hj.
    pose proof (LZ i j ltac:(lia) Hj) as K. rewrite (@rsum_single n i) in K.
    - unfold dl in K. destruct (Nat.eqb_spec i j); [lia|]. destruct HL as [_ [P _]]. specialize (P i ltac:(lia)).
      apply Rmult_integral in K as [K|K]; lra.
    - lia.
    - intros k Hk Hne. destruct (Nat.lt_ge_cases k i) as [|G]; [rewrite IH by lia; ring|destruct HL as [T _]; rewrite T by lia; ring].
  Qed.
  Lemma Z_diag i : (i < n)%nat -> L i i * Z i i = 1.
  Proof.
    intros Hi. pose proof (LZ i i Hi Hi) as K. rewrite (@rsum_single n i) in K; auto.
    - unfold dl in K. now rewrite Nat.eqb_refl in K.
    - intros k Hk Hne. destruct (Nat.lt_ge_cases k i) as [G|G]; [rewrite Z_upper by lia; ring|destruct HL as [T _]; rewrite T by lia; ring].
  Qed.
  Lemma ZZ i j : (i < n)%nat -> (j < n)%nat -> rsum n (fun k => Z k i * Z k j) = Xi j i.
  Proof.
    intros Hi Hj. unfold Z.
    rewrite (rsum_ext _ (fun k => rsum n (fun a => Xi a i * rsum n (fun b => L a k * L b k * Xi b j)))).
    - rewrite rsum_exchange. rewrite (rsum_ext _ (fun a => dl j a * Xi a i)); [now rewrite dl_sum|].
      intros a Ha. rewrite rsum_mul_l. rewrite rsum_exchange.
      rewrite (rsum_ext (n := n) _ (fun b => X a b * Xi b j)).
      + rewrite (HI a j Ha Hj). unfold dl. rewrite (Nat.eqb_sym j a). ring.
      + intros b Hb. rewrite rsum_mul_r. destruct HL as [_ [_ E]]. now rewrite E.
    - intros k Hk. rewrite prod_sums. apply rsum_ext. intros a Ha. rewrite <- rsum_mul_l. apply rsum_ext. intros; ring.
  Qed.
  Lemma Xi_sym i j : (i < n)%nat -> (j < n)%nat -> Xi i j = Xi j i.
  Proof. intros Hi Hj. rewrite <- (ZZ j i), <- (ZZ i j) by auto. apply rsum_ext. intros; ring. Qed.
  Variables (Y M : fmat).
  Hypothesis HM : is_cholesky n Y M.
  Definition T (k m : nat) : R := rsum n (fun i => Z k i * M i m).
  Lemma T_diag i : (i < n)%nat -> T i i = M i i / L i i.
  Proof.
    intros Hi. unfold T. rewrite (@rsum_single n i); auto.
    - pose proof (Z_diag i Hi) as K. destruct HL as [_ [P _]]. specialize (P i Hi).
      replace (Z i i) with (/ L i i); [field; lra|]. apply (Rmult_eq_reg_l (L i i)); [rewrite K; field; lra|lra].
    - intros k Hk Hne. destruct (Nat.lt_ge_cases i k) as [G|G]; [rewrite Z_upper by lia; ring|destruct HM as [U _]; rewrite U by lia; ring].
  Qed.
  Lemma ip_T : matrix_ip n Xi Y = rsum n (fun k => rsum n (fun m => T k m * T k m)).
  Proof.
    unfold matrix_ip, T.
    transitivity (rsum n (fun i => rsum n (fun j => rsum n (fun k => rsum n (fun m => (Z k i * M i m) * (Z k j * M j m)))))).
    - apply rsum_ext. intros i Hi. apply rsum_ext. intros j Hj. rewrite <- (ZZ j i) by auto. destruct HM as [_ [_ E]]. rewrite E by auto.
      rewrite prod_sums. apply rsum_ext. intros k Hk. apply rsum_ext. intros m Hm. ring.
    - transitivity (rsum n (fun k => rsum n (fun m => rsum n (fun i => rsum n (fun j => (Z k i * M i m) * (Z k j * M j m)))))).
      + rewrite (rsum_ext (n := n) _ (fun i => rsum n (fun k => rsum n (fun j => rsum n (fun m => (Z k i * M i m) * (Z k j * M j m)))))) by (intros; apply rsum_exchange).
        rewrite rsum_exchange. apply rsum_ext. intros k Hk.
        rewrite (rsum_ext (n := n) _ (fun i => rsum n (fun m => rsum n (fun j => (Z k i * M i m) * (Z k j * M j m))))) by (intros; apply rsum_exchange).
        apply rsum_exchange.
      + apply rsum_ext. intros k Hk. apply rsum_ext. intros m Hm. now rewrite prod_sums.
  Qed.
  Lemma ln_bound x : 0 < x -> 2 * ln x <= x * x - 1.
  Proof.
    intros Hx. replace (2 * ln x) with (ln (x * x)) by (rewrite ln_mult by auto; ring).
    pose proof (exp_ineq1_le (ln (x * x))) as H. rewrite exp_ln in H by nra. lra.
  Qed.
  Lemma logs_bound : 2 * rsum n (fun i => ln (M i i)) - 2 * rsum n (fun i => ln (L i i)) <= matrix_ip n Xi Y - INR n.
  Proof.
    rewrite ip_T. apply Rle_trans with (rsum n (fun i => T i i * T i i) - INR n).
    - rewrite <- (Rmult_1_r (INR n)), <- rsum_const, <- !rsum_mul_l, <- !rsum_sub. apply rsum_le. intros i Hi.
      destruct HL as [_ [P _]]. specialize (P i Hi). destruct HM as [_ [P2 _]]. specialize (P2 i Hi). rewrite T_diag by auto.
      replace (2 * ln (M i i) - 2 * ln (L i i)) with (2 * ln (M i i / L i i)) by (unfold Rdiv; rewrite ln_mult, ln_Rinv; [ring|auto|auto|now apply Rinv_0_lt_compat]).
      apply ln_bound. now apply Rdiv_lt_0_compat.
    - apply Rplus_le_compat_r. apply rsum_le. intros i Hi. apply (@rsum_ge_term n (fun m => T i m * T i m) i Hi). intros; apply Rle_0_sqr.
  Qed.
  Lemma ip_self : matrix_ip n Xi X = INR n.
  Proof.
    unfold matrix_ip. rewrite (rsum_ext (n := n) _ (fun _ => 1)); [rewrite rsum_const; ring|]. intros i Hi.
    rewrite (rsum_ext (n := n) _ (fun j => X i j * Xi j i)).
    - rewrite (HI i i Hi Hi). now rewrite Nat.eqb_refl.
    - intros j Hj. rewrite (Xi_sym i j) by auto. ring.
  Qed.
End One.

Lemma cholesky_sym n X L : is_cholesky n X L -> fsymmetric n X.
Proof. intros [_ [_ E]] i j Hi Hj. rewrite !E by auto. apply rsum_ext. intros; ring. Qed.
Lemma qform_chol n X L v : is_cholesky n X L -> qform n X v = rsum n (fun k => rsum n (fun i => L i k * v i) * rsum n (fun i => L i k * v i)).
Proof.
  intros [_ [_ E]]. unfold qform. transitivity (rsum n (fun i => rsum n (fun j => rsum n (fun k => (L i k * v i) * (L j k * v j))))).
  - apply rsum_ext. intros i Hi. apply rsum_ext. intros j Hj. rewrite E by auto. rewrite <- rsum_mul_l, <- rsum_mul_r. apply rsum_ext. intros; ring.
  - rewrite (rsum_ext (n := n) _ (fun i => rsum n (fun k => rsum n (fun j => (L i k * v i) * (L j k * v j))))) by (intros; apply rsum_exchange).
    rewrite rsum_exchange. apply rsum_ext. intros k Hk. now rewrite prod_sums.
Qed.
(** L^T v = 0 only for v = 0 *)
Lemma chol_inj n X L v : is_cholesky n X L -> (forall k, (k < n)%nat -> rsum n (fun i => L i k * v i) = 0) -> forall i, (i < n)%nat -> v i = 0.
Proof.
  intros [T [P _]] H. assert (G : forall d i, (d <= n)%nat -> (n - d <= i < n)%nat -> v i = 0).
  { induction d as [|d IH]; intros i Hd Hi; [lia|]. destruct (Nat.eq_dec i (n - S d)) as [->|]; [|apply IH; lia].
    set (k := (n - S d)%nat) in *. pose proof (H k ltac:(lia)) as K. rewrite (@rsum_single n k) in K.
    - specialize (P k ltac:(lia)). apply Rmult_integral in K as [K|K]; lra.
    - lia.
    - intros j Hj Hne. destruct (Nat.lt_ge_cases j k); [rewrite T by lia; ring|rewrite (IH j) by lia; ring]. }
  intros i Hi. apply (G n i); lia.
Qed.
Lemma cholesky_pos_def n X L : is_cholesky n X L -> pos_def n X.
Proof.
  intros HL. split; [eapply cholesky_sym; eauto|]. intros v [i [Hi Hv]]. rewrite (qform_chol n X L v HL).
  destruct (Req_dec (rsum n (fun k => rsum n (fun i => L i k * v i) * rsum n (fun i => L i k * v i))) 0) as [E|E].
  - exfalso. apply Hv. apply (chol_inj n X L v HL); auto. intros k Hk.
    assert (Q := @rsum_eq0 n (fun k => rsum n (fun i => L i k * v i) * rsum n (fun i => L i k * v i)) (fun k _ => Rle_0_sqr _) E k Hk). cbv beta in Q.
    apply Rmult_integral in Q as [Q|Q]; exact Q.
  - assert (0 <= rsum n (fun k => rsum n (fun i => L i k * v i) * rsum n (fun i => L i k * v i))) by (apply rsum_pos; intros; apply Rle_0_sqr). lra.
Qed.

Section F.
  Variables (n : nat) (cholesky : fmat -> option fmat) (inv : fmat -> fmat) (q : R) (C : option fmat).
  Hypothesis Hc : cholesky_ok n cholesky.
  Hypothesis Hi : inverse_ok n inv.
  Notation f := (logdet_func cholesky n q C).
  Notation g := (logdet_grad inv q C).
  Definition lin (X : fmat) : R := match C with Some C => matrix_ip n C X | None => 0 end.
  Lemma f_eq X L : cholesky X = Some L -> f X = Some (-2 * q * rsum n (fun i => ln (L i i)) + lin X).
  Proof. intros E. unfold logdet_func. rewrite E. unfold lin. destruct C; cbv zeta; f_equal. ring. Qed.
  Lemma f_some X : pos_def n X -> exists L, cholesky X = Some L /\ is_cholesky n X L.
  Proof.
    intros H. destruct Hc as [H1 H2]. specialize (H1 X H). destruct (cholesky X) as [L|] eqn:E; [|exfalso; now apply H1].
    exists L. split; auto. apply H2; auto. apply H.
  Qed.
  Lemma domain X : fsymmetric n X -> (f X <> None <-> pos_def n X).
  Proof.
    intros HS. split.
    - intros H. unfold logdet_func in H. destruct (cholesky X) as [L|] eqn:E; [|congruence]. apply (cholesky_pos_def n X L). now apply (proj2 Hc).
    - intros H. destruct (f_some X H) as [L [E _]]. rewrite (f_eq X L E). discriminate.
  Qed.
  Lemma g_ip X H : matrix_ip n (g X) H = - q * matrix_ip n (inv X) H + lin H.
  Proof.
    unfold logdet_grad, lin, matrix_ip. cbv zeta. rewrite <- rsum_mul_l. destruct C.
    - rewrite <- rsum_add. apply rsum_ext. intros i _. rewrite <- rsum_mul_l, <- rsum_add. apply rsum_ext. intros; ring.
    - rewrite Rplus_0_r. apply rsum_ext. intros i _. rewrite <- rsum_mul_l. apply rsum_ext. intros; ring.
  Qed.
  Lemma ip_sub A X Y : matrix_ip n A (fun i j => Y i j - X i j) = matrix_ip n A Y - matrix_ip n A X.
  Proof. unfold matrix_ip. rewrite <- rsum_sub. apply rsum_ext. intros i _. rewrite <- rsum_sub. apply rsum_ext. intros; ring. Qed.
  Lemma lin_sub' X Y : lin (fun i j => Y i j - X i j) = lin Y - lin X.
  Proof. unfold lin. destruct C; [apply ip_sub|ring]. Qed.
  Lemma convex X Y vx vy : 0 <= q -> pos_def n X -> pos_def n Y -> f X = Some vx -> f Y = Some vy ->
    vx + matrix_ip n (g X) (fun i j => Y i j - X i j) <= vy.
  Proof.
    intros Hq PX PY EX EY. destruct (f_some X PX) as [L [CX HL]]. destruct (f_some Y PY) as [M [CY HM]].
    rewrite (f_eq X L CX) in EX. rewrite (f_eq Y M CY) in EY. injection EX as <-. injection EY as <-.
    rewrite g_ip, ip_sub, lin_sub'. pose proof (Hi X PX) as HI.
    pose proof (logs_bound n X L (inv X) HL HI Y M HM) as B. rewrite (ip_self n X L (inv X) HL HI). nra.
  Qed.
  Lemma value_of X L : is_cholesky n X L -> f X = Some (-2 * q * rsum n (fun i => ln (L i i)) + lin X).
  Proof.
    intros HL. pose proof (cholesky_pos_def n X L HL) as PX. destruct (f_some X PX) as [M [CX HM]]. rewrite (f_eq X M CX).
    pose proof (Hi X PX) as HI. pose proof (logs_bound n X L (inv X) HL HI X M HM) as B1. pose proof (logs_bound n X M (inv X) HM HI X L HL) as B2.
    rewrite (ip_self n X L (inv X) HL HI) in *. do 3 f_equal. lra.
  Qed.

  (** *** the derivative *)
  Variables (X H : fmat).
  Hypothesis PX : pos_def n X.
  Hypothesis HS : fsymmetric n H.
  Definition shift (t : R) : fmat := fun i j => X i j + t * H i j.
  Definition sq (v : nat -> R) : R := rsum n (fun i => v i * v i).
  Lemma sq_pos v : 0 <= sq v.
  Proof. apply rsum_pos. intros; apply Rle_0_sqr. Qed.
  Lemma coercive : exists c, 0 < c /\ forall v, sq v <= c * qform n X v.
  Proof.
    destruct (f_some X PX) as [L [_ HL]]. pose proof (Hi X PX) as HI.
    set (M := fun i k => rsum n (fun a => inv X i a * L a k)).
    set (F := rsum n (fun i => rsum n (fun k => M i k * M i k))).
    assert (PF : 0 <= F) by (apply rsum_pos; intros; apply rsum_pos; intros; apply Rle_0_sqr).
    exists (F + 1). split; [lra|]. intros v.
    assert (PQ : 0 <= qform n X v) by (rewrite (qform_chol n X L v HL); apply rsum_pos; intros; apply Rle_0_sqr).
    apply Rle_trans with (F * qform n X v); [|nra]. unfold sq, F. rewrite <- rsum_mul_r. apply rsum_le. intros i Hii.
    assert (E : v i = rsum n (fun k => M i k * rsum n (fun b => L b k * v b))).
    { unfold M. rewrite (rsum_ext (n := n) _ (fun k => rsum n (fun a => inv X i a * rsum n (fun b => L a k * L b k * v b)))).
      - rewrite rsum_exchange. rewrite (rsum_ext (n := n) _ (fun a => rsum n (fun b => inv X i a * X a b * v b))).
        + rewrite rsum_exchange. rewrite (rsum_ext (n := n) _ (fun b => dl i b * v b)); [now rewrite dl_sum|]. intros b Hb.
          rewrite rsum_mul_r. f_equal. unfold dl. rewrite (Nat.eqb_sym i b). rewrite <- (HI b i Hb Hii). apply rsum_ext. intros a Ha.
          rewrite (Xi_sym n X L (inv X) HL HI i a Hii Ha). rewrite (proj1 PX a b Ha Hb). ring.
        + intros a Ha. rewrite rsum_mul_l. rewrite rsum_exchange. rewrite <- rsum_mul_l. apply rsum_ext. intros b Hb.
          rewrite rsum_mul_r. destruct HL as [_ [_ EE]]. rewrite EE by auto. ring.
      - intros k Hk. rewrite prod_sums. apply rsum_ext. intros a Ha. rewrite <- rsum_mul_l. apply rsum_ext. intros; ring. }
    rewrite (qform_chol n X L v HL). rewrite E at 1 2. apply rsum_cs.
  Qed.
  Definition hsum : R := rsum n (fun i => rsum n (fun j => Rabs (H i j))).
  Lemma hsum_pos : 0 <= hsum.
  Proof. apply rsum_pos. intros; apply rsum_pos; intros; apply Rabs_pos. Qed.
  Lemma qform_H v : Rabs (qform n H v) <= hsum * sq v.
  Proof.
    unfold qform, hsum. eapply Rle_trans; [apply rsum_abs|]. rewrite <- rsum_mul_r. apply rsum_le. intros i Hii.
    eapply Rle_trans; [apply rsum_abs|]. rewrite <- rsum_mul_r. apply rsum_le. intros j Hj.
    rewrite !Rabs_mult. assert (A : forall k, (k < n)%nat -> Rabs (v k) * Rabs (v k) <= sq v).
    { intros k Hk. rewrite <- Rabs_mult, Rabs_right by (apply Rle_ge, Rle_0_sqr). apply (@rsum_ge_term n (fun i => v i * v i) k Hk). intros; apply Rle_0_sqr. }
    pose proof (A i Hii). pose proof (A j Hj). pose proof (Rabs_pos (H i j)). pose proof (Rabs_pos (v i)). pose proof (Rabs_pos (v j)).
    assert (Rabs (v i) * Rabs (v j) <= sq v) by nra. nra.
  Qed.
  Lemma qform_shift t v : qform n (shift t) v = qform n X v + t * qform n H v.
  Proof.
    unfold qform, shift. rewrite <- rsum_mul_l, <- rsum_add. apply rsum_ext. intros i _. rewrite <- rsum_mul_l, <- rsum_add. apply rsum_ext. intros; ring.
  Qed.
  Lemma near : exists c del, 0 < c /\ 0 < del /\ forall t, Rabs t < del -> forall v, sq v <= c * qform n (shift t) v.
  Proof.
    destruct coercive as [c [Pc Hcv]]. pose proof hsum_pos as Ph.
    assert (Pd : 0 < / (2 * c * (hsum + 1))) by (apply Rinv_0_lt_compat; nra).
    exists (2 * c), (/ (2 * c * (hsum + 1))). split; [lra|]. split; auto. intros t Ht v.
    rewrite qform_shift. specialize (Hcv v). pose proof (qform_H v) as QH. pose proof (sq_pos v) as Pv.
    assert (B : 2 * c * (hsum + 1) * Rabs t <= 1).
    { apply Rmult_le_reg_l with (/ (2 * c * (hsum + 1))); auto. rewrite <- Rmult_assoc, Rinv_l by nra. lra. }
    assert (B2 : - (Rabs t * (hsum * sq v)) <= t * qform n H v).
    { assert (A : Rabs (t * qform n H v) <= Rabs t * (hsum * sq v)) by (rewrite Rabs_mult; apply Rmult_le_compat_l; [apply Rabs_pos|exact QH]).
      pose proof (Rle_abs (- (t * qform n H v))) as K. rewrite Rabs_Ropp in K. lra. }
    pose proof (Rabs_pos t) as Pt.
    assert (B3 : 2 * c * (Rabs t * (hsum * sq v)) <= sq v).
    { replace (2 * c * (Rabs t * (hsum * sq v))) with ((2 * c * hsum * Rabs t) * sq v) by ring.
      assert (2 * c * hsum * Rabs t <= 1) by nra. nra. }
    nra.
  Qed.
  Lemma shift_pd c t : 0 < c -> (forall v, sq v <= c * qform n (shift t) v) -> pos_def n (shift t).
  Proof.
    intros Pc K. split; [intros i j Hii Hj; unfold shift; rewrite (proj1 PX i j), (HS i j) by auto; reflexivity|].
    intros v [i [Hii Hv]]. specialize (K v). assert (0 < sq v).
    { apply Rlt_le_trans with (v i * v i); [nra|]. apply (@rsum_ge_term n (fun i => v i * v i) i Hii). intros; apply Rle_0_sqr. }
    nra.
  Qed.
  Lemma inv_bound c t : 0 < c -> (forall v, sq v <= c * qform n (shift t) v) -> forall i j, (i < n)%nat -> (j < n)%nat -> Rabs (inv (shift t) i j) <= c.
  Proof.
    intros Pc K i j Hii Hj. pose proof (shift_pd c t Pc K) as PD. pose proof (Hi _ PD) as HI. set (w := fun i => inv (shift t) i j).
    assert (Q : qform n (shift t) w = w j).
    { unfold qform. rewrite (rsum_ext (n := n) _ (fun i => dl j i * w i)); [now rewrite dl_sum|]. intros a Ha.
      unfold dl. rewrite (Nat.eqb_sym j a). rewrite <- (HI a j Ha Hj). rewrite <- rsum_mul_r. apply rsum_ext. intros b Hb. unfold w. ring. }
    specialize (K w). rewrite Q in K.
    assert (A : forall k, (k < n)%nat -> w k * w k <= sq w) by (intros k Hk; apply (@rsum_ge_term n (fun i => w i * w i) k Hk); intros; apply Rle_0_sqr).
    pose proof (A i Hii) as A1. pose proof (A j Hj) as A2. change (Rabs (w i) <= c).
    assert (W : w j <= c) by nra. assert (w i * w i <= c * c) by nra.
    apply Rsqr_le_abs_0 in H0. rewrite (Rabs_right c) in H0 by lra. exact H0.
  Qed.
  Lemma inv_diff t : pos_def n (shift t) -> forall i j, (i < n)%nat -> (j < n)%nat ->
    inv (shift t) i j - inv X i j = - t * rsum n (fun a => rsum n (fun b => inv (shift t) i a * H a b * inv X b j)).
  Proof.
    intros PD i j Hii Hj. pose proof (Hi _ PD) as HT. pose proof (Hi _ PX) as HI.
    destruct (f_some _ PD) as [LT [_ HLT]].
    assert (E1 : inv (shift t) i j = rsum n (fun a => rsum n (fun b => inv (shift t) i a * X a b * inv X b j))).
    { rewrite (rsum_ext (n := n) _ (fun a => dl j a * inv (shift t) i a)); [now rewrite dl_sum|]. intros a Ha.
      unfold dl. rewrite (Nat.eqb_sym j a), <- (HI a j Ha Hj), <- rsum_mul_r. apply rsum_ext. intros; ring. }
    assert (E2 : inv X i j = rsum n (fun a => rsum n (fun b => inv (shift t) i a * shift t a b * inv X b j))).
    { rewrite rsum_exchange. rewrite (rsum_ext (n := n) _ (fun b => dl i b * inv X b j)); [now rewrite dl_sum|]. intros b Hb.
      unfold dl. rewrite (Nat.eqb_sym i b), <- (HT b i Hb Hii), <- rsum_mul_r. apply rsum_ext. intros a Ha.
      rewrite (Xi_sym n _ LT _ HLT HT i a Hii Ha), (proj1 PD a b Ha Hb). ring. }
    rewrite E1, E2 at 1. rewrite <- rsum_sub, <- rsum_mul_l. apply rsum_ext. intros a Ha. rewrite <- rsum_sub, <- rsum_mul_l. apply rsum_ext. intros b Hb. unfold shift. ring.
  Qed.
  Lemma ip_abs_bound (A : fmat) B : (forall i j, (i < n)%nat -> (j < n)%nat -> Rabs (A i j) <= B) -> Rabs (matrix_ip n A H) <= B * hsum.
  Proof.
    intros HA. unfold matrix_ip, hsum. eapply Rle_trans; [apply rsum_abs|]. rewrite <- rsum_mul_l. apply rsum_le. intros i Hii.
    eapply Rle_trans; [apply rsum_abs|]. rewrite <- rsum_mul_l. apply rsum_le. intros j Hj. rewrite Rabs_mult. apply Rmult_le_compat_r; [apply Rabs_pos|auto].
  Qed.
  Lemma derivative : 0 <= q -> derivable_pt_lim (fun t => value (f (shift t))) 0 (matrix_ip n (g X) H).
  Proof.
    intros Hq. destruct near as [c [del [Pc [Pd Hn]]]]. pose proof hsum_pos as Ph.
    assert (BX : forall i j, (i < n)%nat -> (j < n)%nat -> Rabs (inv X i j) <= c * hsum + rsum n (fun i => rsum n (fun j => Rabs (inv X i j)))).
    { intros i j Hii Hj. apply Rle_trans with (rsum n (fun j => Rabs (inv X i j))).
      - apply (@rsum_ge_term n (fun j => Rabs (inv X i j)) j Hj). intros; apply Rabs_pos.
      - apply Rle_trans with (rsum n (fun i => rsum n (fun j => Rabs (inv X i j)))).
        + apply (@rsum_ge_term n (fun i => rsum n (fun j => Rabs (inv X i j))) i Hii). intros; apply rsum_pos; intros; apply Rabs_pos.
        + assert (0 <= c * hsum) by nra. lra. }
    set (D := c * hsum + rsum n (fun i => rsum n (fun j => Rabs (inv X i j)))) in *.
    assert (PD0 : 0 <= D).
    { unfold D. assert (0 <= rsum n (fun i => rsum n (fun j => Rabs (inv X i j)))) by (apply rsum_pos; intros; apply rsum_pos; intros; apply Rabs_pos). nra. }
    set (K := q * (c * hsum * D) * hsum).
    assert (PK : 0 <= K) by (unfold K; apply Rmult_le_pos; auto; apply Rmult_le_pos; auto; apply Rmult_le_pos; auto; nra).
    assert (Main : forall t, Rabs t < del -> Rabs (value (f (shift t)) - value (f (shift 0)) - t * matrix_ip n (g X) H) <= Rabs t * (K * Rabs t)).
    { intros t Ht. pose proof (shift_pd c t Pc (Hn t Ht)) as PT.
      assert (E0 : cholesky (shift 0) = cholesky (shift 0)) by auto. clear E0.
      assert (P0 : pos_def n (shift 0)) by (apply (shift_pd c 0 Pc), Hn; rewrite Rabs_R0; auto).
      destruct (f_some _ PT) as [LT [CT HLT]]. destruct (f_some _ P0) as [L0 [C0 HL0]].
      assert (HLX : is_cholesky n X L0) by (destruct HL0 as [U1 [U2 U3]]; split; auto; split; auto; intros i j Hii Hj; rewrite <- U3 by auto; unfold shift; ring).
      pose proof (Hi _ PT) as IT. pose proof (Hi _ PX) as IX.
      pose proof (logs_bound n X L0 (inv X) HLX IX (shift t) LT HLT) as B1.
      pose proof (logs_bound n (shift t) LT (inv (shift t)) HLT IT X L0 HLX) as B2.
      rewrite (f_eq _ _ CT), (f_eq _ _ C0). cbn [value].
      assert (LE : lin (shift t) = lin (shift 0) + t * lin H).
      { unfold lin. destruct C; [|ring]. unfold matrix_ip, shift. rewrite <- rsum_mul_l, <- rsum_add. apply rsum_ext. intros i _. rewrite <- rsum_mul_l, <- rsum_add. apply rsum_ext. intros; ring. }
      assert (I1 : matrix_ip n (inv X) (shift t) = INR n + t * matrix_ip n (inv X) H).
      { rewrite <- (ip_self n X L0 (inv X) HLX IX). unfold matrix_ip, shift. rewrite <- rsum_mul_l, <- rsum_add. apply rsum_ext. intros i _. rewrite <- rsum_mul_l, <- rsum_add. apply rsum_ext. intros; ring. }
      assert (I2 : matrix_ip n (inv (shift t)) X = INR n - t * matrix_ip n (inv (shift t)) H).
      { rewrite <- (ip_self n (shift t) LT (inv (shift t)) HLT IT). unfold matrix_ip, shift. rewrite <- rsum_mul_l, <- rsum_sub. apply rsum_ext. intros i _. rewrite <- rsum_mul_l, <- rsum_sub. apply rsum_ext. intros; ring. }
      rewrite I1 in B1. rewrite I2 in B2. rewrite LE, g_ip.
      set (a := rsum n (fun i => ln (LT i i))) in *. set (b := rsum n (fun i => ln (L0 i i))) in *.
      set (u := matrix_ip n (inv X) H) in *. set (w := matrix_ip n (inv (shift t)) H) in *.
      assert (DW : Rabs (w - u) <= Rabs t * (c * hsum * D) * hsum).
      { replace (w - u) with (matrix_ip n (fun i j => inv (shift t) i j - inv X i j) H).
        - apply ip_abs_bound. intros i j Hii Hj. rewrite (inv_diff t PT i j Hii Hj), Rabs_mult, Rabs_Ropp.
          apply Rmult_le_compat_l; [apply Rabs_pos|]. eapply Rle_trans; [apply rsum_abs|]. unfold hsum. rewrite <- rsum_mul_l, <- rsum_mul_r. apply rsum_le. intros x Hx.
          eapply Rle_trans; [apply rsum_abs|]. rewrite <- rsum_mul_l, <- rsum_mul_r. apply rsum_le. intros y Hy. rewrite !Rabs_mult.
          pose proof (inv_bound c t Pc (Hn t Ht) i x Hii Hx) as Q1. pose proof (BX y j Hy Hj) as Q2.
          pose proof (Rabs_pos (H x y)). pose proof (Rabs_pos (inv X y j)). pose proof (Rabs_pos (inv (shift t) i x)).
          apply Rmult_le_compat; auto; [apply Rmult_le_pos; auto|]. apply Rmult_le_compat_r; auto.
        - unfold w, u, matrix_ip. rewrite <- rsum_sub. apply rsum_ext. intros i _. rewrite <- rsum_sub. apply rsum_ext. intros; ring. }
      assert (EQ : -2 * q * a + (lin (shift 0) + t * lin H) - (-2 * q * b + lin (shift 0)) - t * (- q * u + lin H) = q * (t * u - 2 * (a - b))) by ring.
      rewrite EQ, Rabs_mult, (Rabs_right q) by lra.
      assert (R1 : 0 <= t * u - 2 * (a - b)) by lra. assert (R2 : t * u - 2 * (a - b) <= t * (u - w)) by lra.
      rewrite (Rabs_right (t * u - 2 * (a - b))) by lra.
      assert (R3 : t * (u - w) <= Rabs t * Rabs (w - u)).
      { rewrite <- (Rabs_Ropp (w - u)), <- Rabs_mult. replace (t * - (w - u)) with (t * (u - w)) by ring. apply Rle_abs. }
      replace (Rabs t * (K * Rabs t)) with (q * (Rabs t * (Rabs t * (c * hsum * D) * hsum))) by (unfold K; ring).
      apply Rmult_le_compat_l; auto. pose proof (Rabs_pos t). nra. }
    intros eps He. assert (Pm : 0 < Rmin del (eps / (K + 1))) by (apply Rmin_pos; auto; apply Rdiv_lt_0_compat; lra).
    exists (mkposreal _ Pm). intros t Ht0 Ht. cbn [pos] in Ht. rewrite Rplus_0_l.
    assert (T1 : Rabs t < del) by (eapply Rlt_le_trans; [exact Ht|apply Rmin_l]).
    assert (T2 : Rabs t < eps / (K + 1)) by (eapply Rlt_le_trans; [exact Ht|apply Rmin_r]).
    specialize (Main t T1). pose proof (Rabs_pos_lt t Ht0) as Pt.
    replace ((value (f (shift t)) - value (f (shift 0))) / t - matrix_ip n (g X) H) with ((value (f (shift t)) - value (f (shift 0)) - t * matrix_ip n (g X) H) / t) by (field; auto).
    unfold Rdiv at 1. rewrite Rabs_mult, Rabs_inv. apply Rle_lt_trans with (K * Rabs t).
    - apply Rmult_le_reg_r with (Rabs t); auto. rewrite Rmult_assoc, Rinv_l by lra. lra.
    - assert (T3 : (K + 1) * Rabs t < eps).
      { apply Rmult_lt_reg_r with (/ (K + 1)); [apply Rinv_0_lt_compat; lra|]. replace ((K + 1) * Rabs t * / (K + 1)) with (Rabs t) by (field; lra). exact T2. }
      nra.
  Qed.
End F.
