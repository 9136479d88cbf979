(** Power iterations and the norm estimate without a spectral gap as hypothesis. *)
From Coq Require Import List Arith Bool Lia Reals Lra.
From Verif Require Import Scalar Vec RVec RMat Loop LoopLemmas XReal OptSpec OptModel OptProofs CGModel SolverSpec SolverLemmas SlsModel SlsSpec SlsProofs SlsLemmas LopSpec LopOpSpec LopModel3 LopLemmas LopProofs2 LopProofs4 EigenSpec EigenProofs LopModel PowerSpec PowerProofs PowerProofs2 PowerProofs3 PowerSpec2.
Import ListNotations.
Set Implicit Arguments.
Unset Strict Implicit.
Local Open Scope R_scope.

Lemma while_ext_inv S (cond : S -> bool) (body body' : S -> option S) (I : S -> Prop) :
  (forall s, I s -> body s = body' s) -> (forall s s', I s -> body s = Some s' -> I s') ->
  forall fuel s, I s -> while_ cond body fuel s = while_ cond body' fuel s.
Proof.
  intros E P. induction fuel as [|f IH]; intros s Is; cbn; [reflexivity|]. destruct (cond s); [|reflexivity]. rewrite (E s Is).
  destruct (body' s) as [s'|] eqn:B; [|reflexivity]. apply IH. apply P with s; auto. now rewrite E.
Qed.
Lemma first_nz (c : nat -> R) i : c i <> 0 -> exists j, (j <= i)%nat /\ c j <> 0 /\ forall k, (k < j)%nat -> c k = 0.
Proof.
  intros Hc. assert (D : forall m, (exists j, (j < m)%nat /\ c j <> 0 /\ forall k, (k < j)%nat -> c k = 0) \/ forall k, (k < m)%nat -> c k = 0).
  { induction m as [|m [IH|IH]]; [right; intros; lia| |].
    - left. destruct IH as (j & H1 & H2). exists j. split; [lia|auto].
    - destruct (Req_dec (c m) 0) as [Z|Z]; [right|left; exists m; auto]. intros k Hk. destruct (Nat.eq_dec k m) as [->|]; auto. apply IH. lia. }
  destruct (D (S i)) as [(j & H1 & H2)|Z]; [exists j; split; [lia|auto]|]. exfalso. apply Hc, Z. lia.
Qed.
Lemma below_max n (f : nat -> R) t : 0 < t -> exists mu, 0 <= mu < t /\ forall i, (i < n)%nat -> f i < t -> f i <= mu.
Proof.
  intros Ht. induction n as [|n (mu & P & H)]; [exists 0; split; [lra|intros; lia]|]. destruct (Rlt_dec (f n) t) as [Q|Q].
  - exists (Rmax mu (f n)). split; [split; [eapply Rle_trans; [|apply Rmax_l]; lra|apply Rmax_lub_lt; lra]|]. intros i Hi Hf. destruct (Nat.eq_dec i n) as [->|]; [apply Rmax_r|]. eapply Rle_trans; [|apply Rmax_l]. apply H; auto. lia.
  - exists mu. split; auto. intros i Hi Hf. destruct (Nat.eq_dec i n) as [->|]; [contradiction|]. apply H; auto. lia.
Qed.

Section Split.
  Variables (n : nat) (H : vec -> vec) (b : vec) (lam : nat -> R) (v : nat -> vec).
  Hypothesis LH : linear_op n n H.
  Hypothesis SH : symmetric_op n H.
  Hypothesis PS : psd_op n H.
  Hypothesis EB : eigenbasis n H lam v.
  Hypothesis Lb : length b = n.
  Variable j : nat.
  Hypothesis Hj : (j < n)%nat.
  Hypothesis Bj : rdot b (v j) <> 0.
  Hypothesis B0 : forall k, (k < j)%nat -> rdot b (v k) = 0.
  Notation top := (lam j).
  Hypothesis Ht : 0 < top.
  Let FO : orthonormal_family n n v. Proof. apply EB. Qed.
  Let FL i : (i < n)%nat -> length (v i) = n. Proof. apply FO. Qed.
  Let FN i k : (i < n)%nat -> (k < n)%nat -> rdot (v i) (v k) = if Nat.eqb i k then 1 else 0. Proof. apply FO. Qed.
  Lemma top_seen : seen n H b top.
  Proof.
    split; [exists (v j); split; [now apply FL|]; split; [now apply EB|auto]|]. intros l u Hl Lu Eu. rewrite (parseval FO Lb Lu). apply rsum_0'. intros i Hi.
    destruct (Nat.lt_ge_cases i j) as [L|G]; [rewrite B0 by auto; ring|]. assert (lam i <= top) by (apply EB; lia).
    assert (E : l * rdot u (v i) = lam i * rdot u (v i)) by (rewrite <- (eb_coord SH EB Lu Hi), Eu, rdot_scale_l; reflexivity).
    assert (Z : rdot u (v i) = 0). { assert ((l - lam i) * rdot u (v i) = 0) by lra. apply Rmult_integral in H1. destruct H1; [lra|auto]. } rewrite Z. ring.
  Qed.
  Definition lo (t : R) : R := if Rltb t top then 1 else 0.
  Definition eq_ (t : R) : R := if Reqb t top then 1 else 0.
  Definition PL := eb_fun n lam v lo.
  Definition ww := eb_fun n lam v eq_ b.
  Definition vv : vec := rscale (/ nrm ww) ww.
  Lemma ww_len : length ww = n. Proof. apply eb_fun_len. Qed.
  Lemma ww_coord i : (i < n)%nat -> rdot ww (v i) = eq_ (lam i) * rdot b (v i). Proof. intros. now apply (eb_fun_coord EB). Qed.
  Lemma eq_top : eq_ top = 1. Proof. unfold eq_. destruct (Reqb_spec top top); [auto|congruence]. Qed.
  Lemma ww_pos : 0 < nrm ww.
  Proof.
    destruct (nrm_pos ww) as [|Z]; auto. exfalso. symmetry in Z. apply nrm_eq0 in Z. apply Bj. pose proof (ww_coord Hj) as E. rewrite eq_top, Z, rdot_zero_l in E. lra.
  Qed.
  Lemma vv_len : length vv = n. Proof. unfold vv. pose proof ww_len. vl. Qed.
  Lemma vv_coord i : (i < n)%nat -> rdot vv (v i) = / nrm ww * (eq_ (lam i) * rdot b (v i)). Proof. intros Hi. unfold vv. now rewrite rdot_scale_l, ww_coord. Qed.
  Lemma vv_unit : nrm2 vv = 1.
  Proof. unfold nrm2, vv. rewrite rdot_scale_l, rdot_scale_r, <- nrm_sq. pose proof ww_pos. field. lra. Qed.
  Lemma eq_lam t : t * eq_ t = top * eq_ t. Proof. unfold eq_. destruct (Reqb_spec t top); [subst|]; ring. Qed.
  Lemma eq_eq t : eq_ t * eq_ t = eq_ t. Proof. unfold eq_. destruct (Reqb t top); ring. Qed.
  Lemma lo_eq t : lo t * eq_ t = 0. Proof. unfold lo, eq_. destruct (Reqb_spec t top); [|ring]. destruct (Rltb t top) eqn:E; [apply Rltb_true in E; lra|ring]. Qed.
  Lemma vv_eig : H vv = rscale top vv.
  Proof.
    pose proof vv_len. apply (coords_eq FO); [now apply LH|vl|]. intros i Hi. rewrite (eb_coord SH EB vv_len Hi), rdot_scale_l, vv_coord by auto.
    replace (lam i * (/ nrm ww * (eq_ (lam i) * rdot b (v i)))) with (/ nrm ww * rdot b (v i) * (lam i * eq_ (lam i))) by ring. rewrite eq_lam. ring.
  Qed.
  Lemma b_vv : rdot b vv = nrm ww.
  Proof.
    unfold vv. rewrite rdot_scale_r. assert (E : rdot b ww = rdot ww ww).
    { rewrite (parseval FO Lb ww_len), (parseval FO ww_len ww_len). apply rsum_ext. intros i Hi. rewrite !ww_coord by auto. replace (eq_ (lam i) * rdot b (v i) * (eq_ (lam i) * rdot b (v i))) with (eq_ (lam i) * eq_ (lam i) * (rdot b (v i) * rdot b (v i))) by ring. rewrite eq_eq. ring. }
    rewrite E, <- nrm_sq. pose proof ww_pos. field. lra.
  Qed.
  Definition Q (x : vec) : vec := radd (PL x) (rscale (rdot x vv) vv).
  Lemma PL_len x : length (PL x) = n. Proof. apply eb_fun_len. Qed.
  Lemma Q_len x : length (Q x) = n. Proof. unfold Q. pose proof (PL_len x). pose proof vv_len. vl. Qed.
  Lemma PL_coord x i : (i < n)%nat -> rdot (PL x) (v i) = lo (lam i) * rdot x (v i). Proof. intros. now apply (eb_fun_coord EB). Qed.
  Lemma Q_coord x i : (i < n)%nat -> rdot (Q x) (v i) = lo (lam i) * rdot x (v i) + rdot x vv * rdot vv (v i).
  Proof. intros Hi. unfold Q. pose proof (PL_len x). pose proof vv_len. rewrite rdot_add_l, rdot_scale_l, PL_coord by (auto; vl). reflexivity. Qed.
  Lemma Q_linear : linear_op n n Q.
  Proof.
    pose proof (eb_fun_linear EB lo) as (P1 & P2 & P3). fold PL in *. pose proof vv_len. split; [intros; apply Q_len|]. split; intros; unfold Q.
    - rewrite P2, rdot_add_l by (auto; lia). pose proof (PL_len x). pose proof (PL_len y). veq.
    - rewrite P3, rdot_scale_l by auto. pose proof (PL_len x). veq.
  Qed.
  Lemma Q_symmetric : symmetric_op n Q.
  Proof.
    intros x y Lx Ly. unfold Q. pose proof (PL_len x). pose proof (PL_len y). pose proof vv_len. rewrite rdot_add_l, rdot_add_r, rdot_scale_l, rdot_scale_r by vl.
    pose proof (eb_fun_symmetric EB lo Lx Ly) as E. fold PL in E. rewrite E, (rdot_sym vv y). ring.
  Qed.
  Lemma Q_b : Q b = b.
  Proof.
    apply (coords_eq FO); [apply Q_len|auto|]. intros i Hi. rewrite Q_coord, b_vv, vv_coord by auto. pose proof ww_pos.
    replace (nrm ww * (/ nrm ww * (eq_ (lam i) * rdot b (v i)))) with (eq_ (lam i) * rdot b (v i)) by (field; lra).
    destruct (Nat.lt_ge_cases i j) as [L|G]; [rewrite B0 by auto; ring|]. assert (lam i <= top) by (apply EB; lia). unfold lo, eq_. destruct (Reqb_spec (lam i) top) as [E|E].
    - rewrite E. destruct (Rltb top top) eqn:X; [apply Rltb_true in X; lra|ring].
    - destruct (Rltb (lam i) top) eqn:X; [ring|]. apply Rltb_false in X. lra.
  Qed.
  Lemma Q_vv : Q vv = vv.
  Proof.
    apply (coords_eq FO); [apply Q_len|apply vv_len|]. intros i Hi. rewrite Q_coord by auto. fold (nrm2 vv). rewrite vv_unit, vv_coord by auto.
    replace (lo (lam i) * (/ nrm ww * (eq_ (lam i) * rdot b (v i)))) with (/ nrm ww * rdot b (v i) * (lo (lam i) * eq_ (lam i))) by ring. rewrite lo_eq. ring.
  Qed.
  Lemma Q_com x : length x = n -> H (Q x) = Q (H x).
  Proof.
    intros Lx. assert (LHx : length (H x) = n) by now apply LH. apply (coords_eq FO); [apply LH, Q_len|apply Q_len|]. intros i Hi. rewrite (eb_coord SH EB (Q_len x) Hi), !Q_coord, (eb_coord SH EB Lx Hi) by auto.
    rewrite (@SH x vv Lx vv_len), vv_eig, rdot_scale_r.
    assert (E : lam i * rdot vv (v i) = top * rdot vv (v i)) by (rewrite <- (eb_coord SH EB vv_len Hi), vv_eig, rdot_scale_l; reflexivity).
    replace (lam i * (lo (lam i) * rdot x (v i) + rdot x vv * rdot vv (v i))) with (lam i * (lo (lam i) * rdot x (v i)) + rdot x vv * (lam i * rdot vv (v i))) by ring. rewrite E. ring.
  Qed.
  Lemma lam_pos i : (i < n)%nat -> 0 <= lam i.
  Proof. intros Hi. rewrite (eb_value EB Hi). apply PS. now apply FL. Qed.
  Variable mu : R.
  Hypothesis Hmu : 0 <= mu < top.
  Hypothesis Bmu : forall i, (i < n)%nat -> lam i < top -> lam i <= mu.
  Lemma lo_mu i : (i < n)%nat -> 0 <= lo (lam i) * lam i <= mu.
  Proof. intros Hi. pose proof (lam_pos Hi). unfold lo. destruct (Rltb (lam i) top) eqn:E; [apply Rltb_true in E; pose proof (Bmu Hi E); lra|lra]. Qed.
  Lemma Q_perp x : rdot x vv = 0 -> Q x = PL x.
  Proof. intros E. unfold Q. rewrite E. pose proof (PL_len x). pose proof vv_len. veq. Qed.
  Lemma lo_sq t : lo t * lo t = lo t. Proof. unfold lo. destruct (Rltb t top); ring. Qed.
  Lemma perp_quad x : length x = n -> rdot x vv = 0 -> rdot (Q x) (H (Q x)) <= mu * nrm2 x.
  Proof.
    intros Lx E. rewrite (eb_quad LH SH EB (Q_len x)), (eb_nrm2 EB Lx), <- rsum_mul_l. apply rsum_le. intros i Hi. rewrite Q_perp, PL_coord by auto.
    replace (lam i * (lo (lam i) * rdot x (v i) * (lo (lam i) * rdot x (v i)))) with (lo (lam i) * lo (lam i) * lam i * (rdot x (v i) * rdot x (v i))) by ring. rewrite lo_sq.
    apply Rmult_le_compat_r; [apply Rle_0_sqr|now apply lo_mu].
  Qed.
  Lemma perp_norm x : length x = n -> rdot x vv = 0 -> nrm2 (H (Q x)) <= mu ^ 2 * nrm2 x.
  Proof.
    intros Lx E. assert (L1 : length (H (Q x)) = n) by (apply LH, Q_len). rewrite (eb_nrm2 EB L1), (eb_nrm2 EB Lx), <- rsum_mul_l. apply rsum_le. intros i Hi. rewrite (eb_coord SH EB (Q_len x) Hi), Q_perp, PL_coord by auto.
    replace (lam i * (lo (lam i) * rdot x (v i)) * (lam i * (lo (lam i) * rdot x (v i)))) with (lo (lam i) * lam i * (lo (lam i) * lam i) * (rdot x (v i) * rdot x (v i))) by ring.
    apply Rmult_le_compat_r; [apply Rle_0_sqr|]. pose proof (lo_mu Hi). rewrite <- Rsqr_pow2. unfold Rsqr. apply Rmult_le_compat; lra.
  Qed.
  Definition HQ (x : vec) : vec := H (Q x).
  Lemma HQ_dominant : dominant n HQ top mu vv.
  Proof.
    split; [|split; [|split; [apply vv_len|split; [apply vv_unit|split; [|split]]]]].
    - split; [intros; apply LH, Q_len|]. destruct Q_linear as (Q1 & Q2 & Q3). destruct LH as (L1 & L2 & L3). split; intros; unfold HQ.
      + rewrite Q2, L2 by (auto; apply Q_len). reflexivity.
      + rewrite Q3, L3 by (auto; apply Q_len). reflexivity.
    - intros x y Lx Ly. unfold HQ. rewrite (@SH (Q x) y (Q_len x) Ly), (Q_symmetric Lx) by now apply LH. now rewrite Q_com.
    - unfold HQ. rewrite Q_vv. apply vv_eig.
    - rewrite Rabs_right by lra. auto.
    - intros x. apply perp_norm.
  Qed.
  Lemma normalize_scale u w : normalize u = Some w -> exists c, w = rscale c u.
  Proof. intros E. apply normalize_some in E as [_ [E _]]. eauto. Qed.
  Lemma power_same mx tol fuel : power_iterations H b mx tol fuel = power_iterations HQ b mx tol fuel.
  Proof.
    unfold power_iterations. rewrite (@while_ext_inv _ (power_cond mx tol) (power_body H) (power_body HQ) (fun s => length (pw_v s) = n /\ Q (pw_v s) = pw_v s)); [reflexivity| | |].
    - intros s [L E]. unfold power_body. destruct (normalize (pw_v s)) as [u|] eqn:N; [|reflexivity]. destruct (normalize_scale N) as [c ->].
      assert (X : HQ (rscale c (pw_v s)) = H (rscale c (pw_v s))) by (unfold HQ; destruct Q_linear as (_ & _ & Q3); rewrite Q3, E by auto; reflexivity). now rewrite X.
    - intros s s' [L E] B. unfold power_body in B. destruct (normalize (pw_v s)) as [u|] eqn:N; [|discriminate]. injection B as <-. cbn [pw_v]. destruct (normalize_scale N) as [c ->].
      assert (Lc : length (rscale c (pw_v s)) = n) by vl. split; [now apply LH|]. rewrite <- Q_com by auto. destruct Q_linear as (_ & _ & Q3). now rewrite Q3, E by auto.
    - cbn. split; [auto|apply Q_b].
  Qed.
  Lemma ps_start : 0 < rdot b vv. Proof. rewrite b_vv. apply ww_pos. Qed.
End Split.
Section Nest.
  Variables (A : operator Rs) (b : vec) (lam : nat -> R) (v : nat -> vec).
  Hypothesis HA : adj A.
  Notation n := (on A).
  Notation H := (fun x : vec => trans A (times A x)).
  Let Adot x y : length x = n -> length y = om A -> rdot (times A x) y = rdot x (trans A y).
  Proof. intros Lx Ly. destruct HA as (_ & _ & A3). rewrite <- !inner_rdot. now apply A3. Qed.
  Let Alen x : length x = n -> length (times A x) = om A. Proof. apply HA. Qed.
  Let AlenT y : length y = om A -> length (trans A y) = n. Proof. apply HA. Qed.
  Lemma gram_dot x y : length x = n -> length y = n -> rdot (H x) y = rdot (times A x) (times A y).
  Proof. intros Lx Ly. rewrite rdot_sym, <- Adot by auto. apply rdot_sym. Qed.
  Lemma gram_linear : linear_op n n H.
  Proof.
    assert (SW : @is_adjoint Rs (on A) (om A) (trans A) (times A)).
    { split; [exact AlenT|]. split; [exact Alen|]. intros y x Ly Lx. rewrite !inner_rdot. rewrite rdot_sym, (rdot_sym y). symmetry. now apply Adot. }
    destruct (@adjoint_linear Rs _ _ _ _ HA) as [T1 T2]. destruct (@adjoint_linear Rs _ _ _ _ SW) as [S1 S2].
    split; [|split].
    - intros x Lx. auto.
    - intros x y Lx Ly. change (radd x y) with (@vadd Rs x y). rewrite T1, S1 by auto. reflexivity.
    - intros c x Lx. change (rscale c x) with (@vscale Rs c x). rewrite T2, S2 by auto. reflexivity.
  Qed.
  Lemma gram_symmetric : symmetric_op n H.
  Proof. intros x y Lx Ly. rewrite gram_dot by auto. rewrite (rdot_sym x), gram_dot by auto. apply rdot_sym. Qed.
  Lemma gram_psd : psd_op n H.
  Proof. intros x Lx. rewrite (rdot_sym x), gram_dot by auto. apply rdot_pos. Qed.
  Hypothesis EB : eigenbasis n H lam v.
  Hypothesis Lb : length b = n.
  Variable j : nat.
  Hypothesis Hj : (j < n)%nat.
  Hypothesis Bj : rdot b (v j) <> 0.
  Hypothesis B0 : forall k, (k < j)%nat -> rdot b (v k) = 0.
  Hypothesis Ht : 0 < lam j.
  Variable mu : R.
  Hypothesis Hmu : 0 <= mu < lam j.
  Hypothesis Bmu : forall i, (i < n)%nat -> lam i < lam j -> lam i <= mu.
  Notation QQ := (Q n b lam v j).
  Definition AQ : operator Rs := Op (K:=Rs) (fun x => times A (QQ x)) (fun y => QQ (trans A y)) (om A) (on A) true true true true.
  Lemma AQ_leading : leading AQ (sqrt (lam j)) (sqrt mu) (vv n b lam v j).
  Proof.
    pose proof (@Q_len n b lam v Lb j Hj) as QL. pose proof (Q_symmetric EB Lb Hj) as QS.
    assert (Sj : sqrt (lam j) ^ 2 = lam j) by (cbn; rewrite Rmult_1_r; apply sqrt_sqrt; lra). assert (Sm : sqrt mu ^ 2 = mu) by (cbn; rewrite Rmult_1_r; apply sqrt_sqrt; lra).
    split; [|split; [exact (vv_len lam v Lb Hj)|split; [exact (vv_unit EB Hj Bj)|split; [|split]]]]; cbn [times trans om on AQ].
    - split; [|split]; cbn [times trans om on AQ]; [intros x Lx; apply Alen, QL|intros y Ly; apply QL|]. intros x y Lx Ly. rewrite !inner_rdot. rewrite Adot by auto. apply QS; auto.
    - pose proof (Q_vv EB Lb Hj Bj) as E. rewrite E, Sj. pose proof (vv_eig gram_linear gram_symmetric gram_psd EB Lb Hj) as E2. cbn beta in E2. rewrite E2. destruct (Q_linear EB Lb Hj) as (_ & _ & Q3). rewrite Q3 by apply (vv_len lam v Lb Hj). now rewrite E.
    - split; [apply sqrt_pos|apply sqrt_lt_1; lra].
    - intros x Lx Hx. rewrite Sm. unfold nrm2 at 1. rewrite <- gram_dot by auto. rewrite rdot_sym. apply (perp_quad gram_linear gram_symmetric gram_psd EB Lb Hj Hmu Bmu Lx Hx).
  Qed.
  Lemma normest_same mx tol : @normest Rs Rabs A b mx tol = @normest Rs Rabs AQ b mx tol.
  Proof.
    destruct (Q_linear EB Lb Hj) as (_ & _ & Q3). pose proof (Q_com gram_linear gram_symmetric gram_psd EB Lb Hj) as QC. cbn beta in QC. pose proof (Q_b EB Lb Hj Bj B0) as Qb.
    assert (X : forall c x, length x = n -> QQ x = x -> QQ (trans A (times A (QQ (rscale c x)))) = trans A (times A (rscale c x))).
    { intros c x Lx E. rewrite Q3, E by auto. assert (Lc : length (rscale c x) = n) by vl. rewrite <- QC, Q3, E by auto. reflexivity. }
    unfold normest. destruct (Reqb _ 0); [reflexivity|].
    rewrite (@while_ext_inv _ (@ne_cond Rs mx tol) (@ne_body Rs Rabs A) (@ne_body Rs Rabs AQ) (fun s => length (ne_v s) = n /\ QQ (ne_v s) = ne_v s)); [reflexivity| | |].
    - intros s [L E]. unfold ne_body. destruct (Reqb _ 0); [reflexivity|]. cbn [times trans AQ]. pose proof (X (/ @l2norm Rs Rabs (ne_v s)) _ L E) as Y. change (@vscale Rs (ofR (/ @l2norm Rs Rabs (ne_v s))) (ne_v s)) with (rscale (/ @l2norm Rs Rabs (ne_v s)) (ne_v s)). rewrite Y. reflexivity.
    - intros s s' [L E] B. unfold ne_body in B. destruct (Reqb _ 0); [discriminate|]. injection B as <-. cbn [ne_v]. cbn [ofR Rs]. set (c := / @l2norm Rs Rabs (ne_v s)).
      assert (Lc : length (rscale c (ne_v s)) = n) by vl. split; [apply AlenT, Alen, Lc|]. change (@vscale Rs c (ne_v s)) with (rscale c (ne_v s)). rewrite <- QC, Q3, E by auto. reflexivity.
    - cbn [ne_v ne_init]. cbn [ofR Rs]. set (c := / @l2norm Rs Rabs b). change (@vscale Rs c b) with (rscale c b). split; [vl|]. now rewrite Q3, Qb by auto.
  Qed.
End Nest.

Lemma pick_top n H b lam v : linear_op n n H -> symmetric_op n H -> psd_op n H -> eigenbasis n H lam v -> length b = n -> H b <> rzero n ->
  exists j mu, (j < n)%nat /\ rdot b (v j) <> 0 /\ (forall k, (k < j)%nat -> rdot b (v k) = 0) /\ 0 < lam j /\ 0 <= mu < lam j /\ forall i, (i < n)%nat -> lam i < lam j -> lam i <= mu.
Proof.
  intros LH SH PS EB Lb Hb. assert (FO : orthonormal_family n n v) by apply EB.
  assert (X : exists i, (i < n)%nat /\ rdot b (v i) <> 0 /\ 0 < lam i).
  {
    assert (D : forall m, (m <= n)%nat -> (exists i, (i < m)%nat /\ lam i * rdot b (v i) <> 0) \/ forall i, (i < m)%nat -> lam i * rdot b (v i) = 0).
    { induction m as [|m IH]; intros Hm; [right; intros; lia|]. destruct IH as [(i & H1 & H2)|IH]; [lia|left; exists i; split; [lia|auto]|].
      destruct (Req_dec (lam m * rdot b (v m)) 0) as [Z|Z]; [right|left; exists m; auto]. intros k Hk. destruct (Nat.eq_dec k m) as [->|]; auto. apply IH. lia. }
    destruct (D n (le_n n)) as [(i & Hi & Z)|Z].
    - exists i. split; auto. split; [intros E; apply Z; rewrite E; ring|]. pose proof (lam_pos PS EB Hi) as P. destruct P as [|P]; auto. exfalso. apply Z. rewrite <- P. ring.
    - exfalso. apply Hb. apply (coords_eq FO); [now apply LH|apply rzero_len|]. intros i Hi. rewrite (eb_coord SH EB Lb Hi), rdot_zero_l. auto. }
  destruct X as (i & Hi & Bi & Pi). destruct (first_nz (c := fun i => rdot b (v i)) Bi) as (j & Hj & Bj & B0). cbn beta in *.
  assert (Hjn : (j < n)%nat) by lia. assert (lam i <= lam j) by (apply EB; lia). destruct (@below_max n lam (lam j)) as (mu & P1 & P2); [lra|].
  exists j, mu. repeat split; auto; lra.
Qed.
Lemma power_any n H b : linear_op n n H -> symmetric_op n H -> psd_op n H -> length b = n -> H b <> rzero n ->
  exists lam mu v, 0 <= mu < lam /\ seen n H b lam /\ length v = n /\ nrm2 v = 1 /\ H v = rscale lam v /\ 0 < rdot b v /\
  (forall mx tol fuel sol, power_iterations H b mx tol fuel = Done sol -> (0 < ps_it sol)%nat ->
    Rabs (ps_s sol - lam) <= (lam + mu) * ((mu / lam) ^ (2 * (ps_it sol - 1)) * tan2 v b) /\
    exists sg, (sg = 1 \/ sg = -1) /\ nrm2 (rsub (ps_v sol) (rscale sg v)) <= 2 * ((mu / lam) ^ (2 * ps_it sol) * tan2 v b)) /\
  (forall mx tol fuel, (mx <= fuel)%nat -> exists sol, power_iterations H b mx tol fuel = Done sol) /\
  (forall tol, 0 < tol -> exists k0, forall mx fuel, (k0 <= fuel)%nat -> exists sol, power_iterations H b mx tol fuel = Done sol /\ (ps_it sol <= k0)%nat).
Proof.
  intros LH SH PS Lb Hb. destruct (spectral LH SH) as (lam & v & EB). destruct (pick_top LH SH PS EB Lb Hb) as (j & mu & Hj & Bj & B0 & Pj & Hmu & Bmu).
  pose proof (HQ_dominant LH SH PS EB Lb Hj Bj Pj Hmu Bmu) as D. pose proof (ps_start EB Lb Hj Bj) as St. assert (St' : rdot b (vv n b lam v j) <> 0) by lra.
  exists (lam j), mu, (vv n b lam v j). split; auto. split; [now apply (top_seen SH EB)|]. split; [apply (vv_len lam v Lb Hj)|]. split; [exact (vv_unit EB Hj Bj)|]. split; [now apply (vv_eig LH SH PS EB)|]. split; auto.
  split; [|split].
  - intros mx tol fuel sol. rewrite (power_same LH SH PS EB Lb Hj Bj B0). intros Hd Hi. pose proof (@power_conv n _ _ _ _ D b mx tol Lb St' fuel sol Hd Hi) as X. rewrite (Rabs_right (lam j)) in X by lra. exact X.
  - intros mx tol fuel Hf. rewrite (power_same LH SH PS EB Lb Hj Bj B0). exact (@power_runs n _ _ _ _ D b mx tol Lb St' fuel Hf).
  - intros tol Htol. destruct (@power_ends n _ _ _ _ b tol D Lb St' Htol) as [k0 K]. exists k0. intros mx fuel Hf. rewrite (power_same LH SH PS EB Lb Hj Bj B0). auto.
Qed.
Lemma normest_any (A : operator Rs) b : adj A -> length b = on A -> times A b <> rzero (om A) ->
  exists sg tau v, 0 <= tau < sg /\ seen (on A) (fun x => trans A (times A x)) b (sg ^ 2) /\ length v = on A /\ nrm2 v = 1 /\ trans A (times A v) = rscale (sg ^ 2) v /\ 0 < rdot b v /\
  (forall mx tol, exists e, @normest Rs Rabs A b mx tol = Done e) /\
  (forall mx tol e, (1 <= mx)%nat -> tol + sg ^ 2 / 10 ^ 20 < 1 -> @normest Rs Rabs A b mx tol = Done e -> exists k, (1 <= k <= mx)%nat /\ 0 <= e /\
    Rabs (e ^ 2 - sg ^ 2) <= (sg ^ 2 + tau ^ 2) * ((tau / sg) ^ (4 * (k - 1)) * tan2 v b) /\
    (k = mx \/ (2 <= k)%nat /\ exists e', 0 <= e' /\ Rabs (e ^ 2 - e' ^ 2) <= tol * e' ^ 2 /\
      Rabs (e' ^ 2 - sg ^ 2) <= (sg ^ 2 + tau ^ 2) * ((tau / sg) ^ (4 * (k - 2)) * tan2 v b))).
Proof.
  intros HA Lb Hb. pose proof (gram_linear HA) as LH. pose proof (gram_symmetric HA) as SH. pose proof (gram_psd HA) as PS.
  assert (Hb' : trans A (times A b) <> rzero (on A)).
  { intros E. apply Hb. assert (L1 : length (times A b) = om A) by now apply HA. assert (Z : nrm2 (times A b) = 0) by (unfold nrm2; rewrite <- gram_dot, E, rdot_zero_l by auto; reflexivity). rewrite <- L1. now apply rdot_eq0 in Z. }
  destruct (spectral LH SH) as (lam & v & EB). destruct (pick_top LH SH PS EB Lb Hb') as (j & mu & Hj & Bj & B0 & Pj & Hmu & Bmu).
  pose proof (AQ_leading HA EB Lb Hj Bj Pj Hmu Bmu) as D. pose proof (ps_start EB Lb Hj Bj) as St. assert (St' : rdot b (vv (on A) b lam v j) <> 0) by lra.
  assert (Sj : sqrt (lam j) ^ 2 = lam j) by (cbn; rewrite Rmult_1_r; apply sqrt_sqrt; lra).
  exists (sqrt (lam j)), (sqrt mu), (vv (on A) b lam v j). split; [apply D|]. split; [rewrite Sj; now apply (top_seen SH EB)|]. split; [apply (vv_len lam v Lb Hj)|]. split; [exact (vv_unit EB Hj Bj)|]. split; [rewrite Sj; now apply (vv_eig LH SH PS EB)|]. split; auto.
  split.
  - intros mx tol. rewrite (normest_same HA EB Lb Hj Bj B0). exact (@normest_done _ _ _ _ D b mx tol Lb St').
  - intros mx tol e. rewrite (normest_same HA EB Lb Hj Bj B0). exact (@normest_conv _ _ _ _ D b mx tol Lb St' e).
Qed.
(** the value found is the largest one when the start is not orthogonal to an extremal vector *)
Lemma seen_top n H b lam L u : linear_op n n H -> symmetric_op n H -> psd_op n H -> length b = n -> seen n H b lam ->
  (forall x, length x = n -> rdot x (H x) <= L * nrm2 x) -> length u = n -> rdot u (H u) = L * nrm2 u -> rdot b u <> 0 -> lam = L.
Proof.
  intros LH SH PS Lb [(w & Lw & Ew & Bw) S2] HL Lu Eu Bu.
  assert (W : 0 < nrm2 w). { destruct (rdot_pos w) as [|Z]; auto. exfalso. apply Bw. symmetry in Z. apply rdot_eq0 in Z. rewrite Z, rdot_zero_r. reflexivity. }
  assert (lam <= L). { pose proof (HL w Lw) as X. rewrite Ew, rdot_scale_r in X. fold (nrm2 w) in X. apply Rmult_le_reg_r with (nrm2 w); auto. }
  destruct H0 as [X|X]; auto. exfalso. apply Bu, (S2 L u X Lu).
  destruct (spectral LH SH) as (la & v & EB). assert (FO : orthonormal_family n n v) by apply EB.
  apply (coords_eq FO); [now apply LH|vl|]. intros i Hi. rewrite (eb_coord SH EB Lu Hi), rdot_scale_l.
  assert (B : forall i, (i < n)%nat -> la i <= L). { intros k Hk. rewrite (eb_value EB Hk). pose proof (HL (v k) (proj1 FO k Hk)) as Y. unfold nrm2 in Y. rewrite (proj2 FO k k Hk Hk), Nat.eqb_refl in Y. lra. }
  assert (S0 : rsum n (fun i => (L - la i) * (rdot u (v i) * rdot u (v i))) = 0).
  { rewrite (eb_quad LH SH EB Lu), (eb_nrm2 EB Lu) in Eu. rewrite <- rsum_mul_l in Eu. transitivity (rsum n (fun i => L * (rdot u (v i) * rdot u (v i))) - rsum n (fun i => la i * (rdot u (v i) * rdot u (v i)))); [|lra]. rewrite <- rsum_sub. apply rsum_ext. intros. ring. }
  assert (Z : (L - la i) * (rdot u (v i) * rdot u (v i)) = 0).
  { apply (rsum_eq0 (n := n) (fun i => (L - la i) * (rdot u (v i) * rdot u (v i)))); auto. intros k Hk. pose proof (B k Hk). apply Rmult_le_pos; [lra|apply Rle_0_sqr]. }
  apply Rmult_integral in Z as [Z|Z]; [replace (la i) with L by lra; reflexivity|]. apply Rmult_integral in Z. assert (Y : rdot u (v i) = 0) by tauto. rewrite Y. ring.
Qed.
(** every operator attains its norm *)
Lemma norm_attained (A : operator Rs) : adj A -> (0 < on A)%nat -> exists N u, 0 <= N /\ length u = on A /\ nrm u = 1 /\ nrm (times A u) = N /\
  forall x, length x = on A -> nrm (times A x) <= N * nrm x.
Proof.
  intros HA Hn. pose proof (gram_linear HA) as LH. pose proof (gram_symmetric HA) as SH. destruct (spectral LH SH) as (lam & v & EB). assert (FO : orthonormal_family (on A) (on A) v) by apply EB.
  pose proof (proj1 FO 0%nat Hn) as L0. assert (N0 : nrm2 (v 0%nat) = 1) by (unfold nrm2; now rewrite (proj2 FO 0%nat 0%nat Hn Hn)).
  assert (E0 : nrm2 (times A (v 0%nat)) = lam 0%nat) by (unfold nrm2; rewrite <- gram_dot, rdot_sym by auto; symmetry; exact (eb_value EB Hn)).
  exists (nrm (times A (v 0%nat))), (v 0%nat). split; [apply nrm_pos|]. split; auto. split; [unfold nrm; fold (nrm2 (v 0%nat)); rewrite N0; apply sqrt_1|]. split; auto.
  intros x Lx. apply sq_le_nrm || idtac. unfold nrm. rewrite <- sqrt_mult by apply rdot_pos. apply sqrt_le_1_alt. fold (nrm2 (times A (v 0%nat))) (nrm2 x). rewrite E0, <- gram_dot, rdot_sym by auto.
  pose proof (eb_quad LH SH EB Lx) as X. cbn beta in X. rewrite X, (eb_nrm2 EB Lx), <- rsum_mul_l. apply rsum_le. intros i Hi. apply Rmult_le_compat_r; [apply Rle_0_sqr|apply EB; lia].
Qed.
