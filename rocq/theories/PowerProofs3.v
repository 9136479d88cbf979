From Coq Require Import List Arith Bool Lia Reals Lra.
From Verif Require Import Scalar Vec RVec RMat Loop LoopLemmas XReal OptSpec OptModel OptProofs CGModel SolverSpec SolverLemmas SlsModel SlsSpec SlsProofs SlsLemmas LopSpec LopOpSpec LopModel LopModel3 LopLemmas LopProofs2 LopProofs4 PowerSpec PowerProofs.
Import ListNotations.
Set Implicit Arguments.
Unset Strict Implicit.
Local Open Scope R_scope.

Lemma l2norm_nrm (x : vec) : @l2norm Rs Rabs x = nrm x.
Proof.
  unfold l2norm, nrm. f_equal. transitivity (Rabs (rdot x x)); [|apply Rabs_right, Rle_ge, rdot_pos]. rewrite <- inner_rdot. symmetry. exact (Rs_self x).
Qed.
Section L.
  Variables (A : operator Rs) (sg tau : R) (v : vec).
  Hypothesis HL : leading A sg tau v.
  Notation n := (on A).
  Notation T := (fun x : vec => trans A (times A x)).
  Lemma lead_adj x y : length x = n -> length y = om A -> rdot (times A x) y = rdot x (trans A y).
  Proof. intros Lx Ly. destruct HL as ((_ & _ & A3) & _). rewrite <- !inner_rdot. now apply A3. Qed.
  Lemma lead_len x : length x = n -> length (times A x) = om A. Proof. apply HL. Qed.
  Lemma lead_lenT y : length y = om A -> length (trans A y) = n. Proof. apply HL. Qed.
  Lemma adj_swap : @is_adjoint Rs (on A) (om A) (trans A) (times A).
  Proof.
    split; [exact lead_lenT|]. split; [exact lead_len|]. intros y x Ly Lx. rewrite !inner_rdot. rewrite rdot_sym, (rdot_sym y). symmetry. now apply lead_adj.
  Qed.
  Lemma T_linear : linear_op n n T.
  Proof.
    destruct (@adjoint_linear Rs _ _ _ _ (proj1 HL)) as [T1 T2]. destruct (@adjoint_linear Rs _ _ _ _ adj_swap) as [S1 S2].
    split; [|split].
    - intros x Lx. now apply lead_lenT, lead_len.
    - intros x y Lx Ly. change (radd x y) with (@vadd Rs x y). rewrite T1, S1 by (auto; now apply lead_len). reflexivity.
    - intros c x Lx. change (rscale c x) with (@vscale Rs c x). rewrite T2, S2 by (auto; now apply lead_len). reflexivity.
  Qed.
  Lemma T_dot x y : length x = n -> length y = n -> rdot (T x) y = rdot (times A x) (times A y).
  Proof. intros Lx Ly. rewrite rdot_sym, <- lead_adj by (auto; now apply lead_len). apply rdot_sym. Qed.
  Lemma T_dominant : dominant n T (sg ^ 2) (tau ^ 2) v.
  Proof.
    destruct HL as (HA & Lv & Nv & Ev & Ht & Hw). split; [exact T_linear|]. split; [|split; auto; split; auto; split; auto; split].
    - intros x y Lx Ly. rewrite T_dot by auto. rewrite (rdot_sym x), T_dot by auto. apply rdot_sym.
    - rewrite Rabs_right by nra. nra.
    - intros x Lx Hx. set (w := T x). assert (Lw : length w = n) by now apply lead_lenT, lead_len.
      assert (Hwv : rdot w v = 0) by (unfold w; rewrite T_dot by auto; rewrite lead_adj by (auto; now apply lead_len); rewrite Ev, rdot_scale_r, Hx; ring).
      assert (E : nrm2 w = rdot (times A x) (times A w)) by (unfold nrm2; unfold w at 1; now apply T_dot).
      pose proof (cauchy_sq (times A x) (times A w)) as C. rewrite <- E in C. fold (nrm2 (times A x)) (nrm2 (times A w)) in C.
      pose proof (Hw x Lx Hx) as W1. pose proof (Hw w Lw Hwv) as W2. pose proof (rdot_pos w) as Pw. pose proof (rdot_pos x) as Px.
      pose proof (rdot_pos (times A x)) as Pa. pose proof (rdot_pos (times A w)) as Pb. fold (nrm2 w) in Pw. fold (nrm2 x) in Px. fold (nrm2 (times A x)) in Pa. fold (nrm2 (times A w)) in Pb.
      assert (Q : nrm2 w * nrm2 w <= (tau ^ 2 * nrm2 x) * (tau ^ 2 * nrm2 w)) by (eapply Rle_trans; [exact C|]; apply Rmult_le_compat; auto).
      destruct Pw as [Pw|Pw]; [|rewrite <- Pw; apply Rmult_le_pos; auto; apply pow2_ge_0].
      apply Rmult_le_reg_r with (nrm2 w); auto. lra.
  Qed.
  Section Run.
    Variables (b : vec) (mx : nat) (tol : R).
    Hypothesis Lb : length b = n.
    Hypothesis Hb : rdot b v <> 0.
    Notation cond := (@ne_cond Rs mx tol).
    Notation body := (@ne_body Rs Rabs A).
    Notation b' := (@vscale Rs (/ nrm b) b).
    Notation Rch := (reaches cond body (@ne_init Rs b')).
    Notation q := ((tau ^ 2 / sg ^ 2) ^ 2).
    Notation D := T_dominant.
    Lemma nb_pos : 0 < nrm b.
    Proof. destruct (nrm_pos b) as [P|P]; auto. exfalso. symmetry in P. apply nrm_eq0 in P. apply Hb. rewrite P. apply rdot_zero_l. Qed.
    Lemma b'_start : length b' = n /\ rdot b' v <> 0 /\ tan2 v b' = tan2 v b.
    Proof.
      pose proof nb_pos. assert (Hc : / nrm b <> 0) by (apply Rinv_neq_0_compat; lra). change b' with (rscale (/ nrm b) b).
      split; [now rewrite rscale_len|]. split; [|now apply tan2_scale]. rewrite rdot_scale_l. now apply Rmult_integral_contrapositive_currified.
    Qed.
    Lemma ne_step (s s' : ne_state Rs) : length (ne_v s) = n -> rdot (ne_v s) v <> 0 -> body s = Some s' ->
      exists u, length u = n /\ nrm2 u = 1 /\ rdot u v <> 0 /\ tan2 v u = tan2 v (ne_v s) /\ ne_v s' = T u /\ ne_new s' = rdot u (T u) /\
        ne_old s' = ne_new s /\ ne_it s' = S (ne_it s).
    Proof.
      intros Ls Ds. unfold ne_body. rewrite l2norm_nrm. destruct (Reqb_spec (nrm (ne_v s)) 0) as [Z|Z]; [discriminate|]. intros E. injection E as <-. cbn [ne_v ne_new ne_old ne_it].
      assert (P : 0 < nrm (ne_v s)) by (pose proof (nrm_pos (ne_v s)); lra).
      assert (En : normalize (ne_v s) = Some (rscale (/ nrm (ne_v s)) (ne_v s))) by (unfold normalize; destruct (Reqb_spec (nrm (ne_v s)) 0); [lra|reflexivity]).
      destruct (unit_of D En Ds Ls) as (Lu & Nu & Du & Tu). change (@vscale Rs (ofR (/ nrm (ne_v s))) (ne_v s)) with (rscale (/ nrm (ne_v s)) (ne_v s)).
      set (u := rscale _ _) in *. exists u. repeat (split; [auto; fail|]). split; auto. rewrite inner_rdot. apply Rabs_right, Rle_ge.
      rewrite rdot_sym. rewrite T_dot by auto. apply rdot_pos.
    Qed.
    Lemma ne_angle k (s : ne_state Rs) : Rch k s -> length (ne_v s) = n /\ rdot (ne_v s) v <> 0 /\ tan2 v (ne_v s) <= q ^ k * tan2 v b /\ ne_it s = k.
    Proof.
      destruct b'_start as (B1 & B2 & B3). induction 1 as [|k s s' H (L & Dv & Tn & I) C E]; [cbn; split; auto; split; auto; split; auto; change (@map R R) with (@map R R); cbn in B3; lra|].
      destruct (ne_step L Dv E) as (u & Lu & Nu & Du & Tu & Ev & _ & _ & Ei). rewrite Ev. split; [now apply lead_lenT, lead_len|]. split.
      - rewrite (dot_A D) by auto. apply Rmult_integral_contrapositive_currified; auto. apply (lam_nz D).
      - split; [|lia]. eapply Rle_trans; [now apply (tan2_A D)|]. rewrite Tu. change (q ^ S k) with (q * q ^ k). rewrite (Rmult_assoc q). apply Rmult_le_compat_l; auto. apply (q_range D).
    Qed.
    Lemma ne_value k (s : ne_state Rs) : Rch (S k) s -> 0 <= ne_new s /\ Rabs (ne_new s - sg ^ 2) <= (sg ^ 2 + tau ^ 2) * (q ^ k * tan2 v b).
    Proof.
      intros H. destruct (reaches_S_inv H) as [s1 [H1 [_ E]]]. destruct (ne_angle H1) as (L & Dv & Tn & _).
      destruct (ne_step L Dv E) as (u & Lu & Nu & Du & Tu & _ & En & _). rewrite En. split; [rewrite rdot_sym, (T_dot Lu Lu); apply rdot_pos|].
      eapply Rle_trans; [now apply (rayleigh D)|]. rewrite Tu, (Rabs_right (sg ^ 2)) by (apply Rle_ge, pow2_ge_0).
      apply Rmult_le_compat_l; auto. apply Rplus_le_le_0_compat; apply pow2_ge_0.
    Qed.
    Lemma ray_le u : length u = n -> nrm2 u = 1 -> rdot u (T u) <= sg ^ 2.
    Proof.
      intros Lu Nu. destruct HL as (_ & Lv & _ & _ & Ht & Hw).
      pose proof (per_len D Lu) as Lp. pose proof (Hw _ Lp (per_orth D Lu)) as W.
      assert (E : rdot u (T u) = sg ^ 2 * rdot u v ^ 2 + nrm2 (times A (per v u))).
      { pose proof (ray_split D Lu) as R. cbv beta in R |- *. rewrite R. f_equal. rewrite rdot_sym. now rewrite (T_dot Lp Lp). }
      rewrite E. pose proof (per_nrm2 D Lu) as N. rewrite Nu in N. rewrite N in W. pose proof (pow2_ge_0 (rdot u v)).
      assert (0 <= nrm2 (per v u)) by apply rdot_pos. assert (tau ^ 2 <= sg ^ 2) by nra.
      apply Rle_trans with (sg ^ 2 * rdot u v ^ 2 + sg ^ 2 * (1 - rdot u v ^ 2)); [|lra]. apply Rplus_le_compat_l. eapply Rle_trans; [exact W|]. apply Rmult_le_compat_r; lra.
    Qed.
    Lemma ne_body_ok k (s : ne_state Rs) : Rch k s -> body s <> None.
    Proof.
      intros H. destruct (ne_angle H) as (L & Dv & _). unfold ne_body. rewrite l2norm_nrm. destruct (Reqb_spec (nrm (ne_v s)) 0) as [Z|Z]; [|discriminate].
      exfalso. apply nrm_eq0 in Z. apply Dv. rewrite Z. apply rdot_zero_l.
    Qed.
    Lemma normest_done : exists e, @normest Rs Rabs A b mx tol = Done e.
    Proof.
      unfold normest. rewrite l2norm_nrm. pose proof nb_pos. destruct (Reqb_spec (nrm b) 0); [lra|]. change (@ofR Rs (/ nrm b)) with (/ nrm b).
      destruct (@while_total _ cond body (@ne_init Rs b') mx) as [s W].
      - intros k s R C. now apply (ne_body_ok R).
      - intros k s R C. destruct (ne_angle R) as (_ & _ & _ & I). unfold ne_cond in C. apply andb_true_iff in C as [C _]. apply Nat.ltb_lt in C. lia.
      - rewrite W. eauto.
    Qed.
    Lemma normest_conv e : (1 <= mx)%nat -> tol + sg ^ 2 / 10 ^ 20 < 1 -> @normest Rs Rabs A b mx tol = Done e -> exists k, (1 <= k <= mx)%nat /\ 0 <= e /\
      Rabs (e ^ 2 - sg ^ 2) <= (sg ^ 2 + tau ^ 2) * ((tau / sg) ^ (4 * (k - 1)) * tan2 v b) /\
      (k = mx \/ (2 <= k)%nat /\ exists e', 0 <= e' /\ Rabs (e ^ 2 - e' ^ 2) <= tol * e' ^ 2 /\
        Rabs (e' ^ 2 - sg ^ 2) <= (sg ^ 2 + tau ^ 2) * ((tau / sg) ^ (4 * (k - 2)) * tan2 v b)).
    Proof.
      intros Hm Ht. assert (Hsg : 0 < sg) by (destruct HL as (_ & _ & _ & _ & X & _); lra).
      assert (EQ : forall j, q ^ j = (tau / sg) ^ (4 * j)).
      { intros j. rewrite pow_mult. f_equal. field. lra. }
      unfold normest. rewrite l2norm_nrm. pose proof nb_pos. destruct (Reqb_spec (nrm b) 0); [lra|]. change (@ofR Rs (/ nrm b)) with (/ nrm b).
      destruct (while_ _ _ _ _) as [s| |] eqn:W; try discriminate. intros E. injection E as <-. apply while_done in W as [k [_ [W C]]].
      destruct (ne_angle W) as (_ & _ & _ & I).
      assert (Hk : (1 <= k <= mx)%nat).
      { destruct k as [|k].
        - exfalso. inversion W; subst. destruct mx as [|m']; [lia|]. rewrite ne_cond_init in C by (assert (0 <= sg ^ 2 / 10 ^ 20) by (apply Rmult_le_pos; [apply pow2_ge_0|apply Rlt_le, Rinv_0_lt_compat, pow_lt; lra]); lra). discriminate.
        - destruct (reaches_S_inv W) as [s1 [W1 [C1 _]]]. destruct (ne_angle W1) as (_ & _ & _ & I1). unfold ne_cond in C1. apply andb_true_iff in C1 as [C1 _]. apply Nat.ltb_lt in C1. lia. }
      exists k. split; auto. split; [apply sqrt_pos|]. destruct k as [|k]; [lia|]. destruct (ne_value W) as [P V].
      assert (S1 : sqrt (ne_new s) ^ 2 = ne_new s) by (cbn [pow]; rewrite Rmult_1_r; now apply sqrt_sqrt). rewrite S1.
      replace (S k - 1)%nat with k by lia. rewrite <- EQ. split; auto.
      unfold ne_cond in C. apply andb_false_iff in C as [C|C]; [left; apply Nat.ltb_ge in C; lia|].
      destruct k as [|k].
      - left. exfalso. destruct (reaches_S_inv W) as [s1 [W1 [_ E1]]]. inversion W1; subst. destruct b'_start as (B1 & B2 & _).
        destruct (@ne_step (@ne_init Rs b') s B1 B2 E1) as (u & Lu & Nu & Du & _ & _ & En & Eo & _). cbn [ne_init ne_new] in Eo.
        rewrite Eo in C. assert (P20 : 0 < 10 ^ 20) by (apply pow_lt; lra). destruct (Reqb_spec (10 ^ 20) 0); [lra|]. apply Rltb_false in C.
        assert (U : ne_new s <= sg ^ 2).
        { rewrite En. now apply ray_le. }
        set (B := 10 ^ 20) in *. assert (Q : Rabs ((ne_new s - B) / B) * B <= tol * B) by (apply Rmult_le_compat_r; lra).
        unfold Rdiv in Q. rewrite Rabs_mult, (Rabs_right (/ B)), Rmult_assoc, Rinv_l in Q by (try apply Rle_ge, Rlt_le, Rinv_0_lt_compat; lra).
        assert (M : (tol + sg ^ 2 / B) * B < 1 * B) by (apply Rmult_lt_compat_r; auto). replace ((tol + sg ^ 2 / B) * B) with (tol * B + sg ^ 2) in M by (field; lra).
        pose proof (Rle_abs (- (ne_new s - B))) as Z. rewrite Rabs_Ropp in Z. lra.
      - right. split; [lia|]. destruct (reaches_S_inv W) as [s1 [W1 [_ E1]]]. destruct (ne_value W1) as [P1 V1]. destruct (ne_angle W1) as (L1 & D1 & _).
        destruct (ne_step L1 D1 E1) as (u & _ & _ & _ & _ & _ & _ & Eo & _). rewrite Eo in C.
        exists (sqrt (ne_new s1)). split; [apply sqrt_pos|]. assert (S2 : sqrt (ne_new s1) ^ 2 = ne_new s1) by (cbn [pow]; rewrite Rmult_1_r; now apply sqrt_sqrt). rewrite S2.
        replace (S (S k) - 2)%nat with k by lia. rewrite <- EQ. split; auto. destruct (Reqb_spec (ne_new s1) 0) as [Z|Z].
        + destruct (Reqb_spec (ne_new s) 0) as [Y|Y]; [|discriminate]. rewrite Z, Y, Rminus_0_r, Rabs_R0. lra.
        + apply Rltb_false in C. assert (Hp : 0 < ne_new s1) by lra. unfold Rdiv in C. rewrite Rabs_mult, Rabs_inv, (Rabs_right (ne_new s1)) in C by lra.
          apply Rmult_le_compat_r with (r := ne_new s1) in C; [|lra]. rewrite Rmult_assoc, Rinv_l in C by lra. lra.
    Qed.
  End Run.
End L.
