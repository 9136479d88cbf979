(** Runs, Ritz vectors and rank. *)
From Coq Require Import List Arith Bool Reals Lia Lra Psatz FunctionalExtensionality.
From Verif Require Import Vec RVec Loop BsblModel LinAlg SubspModel SubspSpec SubspProofs LanModel LanSpec LanProofs.
Import ListNotations.
Local Open Scope R_scope.

Section P.
  Variables (m n k : nat).
  Variables (times trans : fvec -> fvec).
  Variable pol : policy.
  Variables (draw_p draw_r : nat -> fvec).
  Hypothesis Hadj : adjoint_pair m n times trans.

  Lemma run_iter t p0 st : lanbpro m n k times trans pol draw_p draw_r t p0 = Some st ->
    ls_iterations st = (t + 1)%nat.
  Proof.
    revert st. induction t as [|t IH]; intros st; cbn [lanbpro].
    - unfold lanbpro_init. destruct (final_p _ _ _ _ _ _ _ _ _) as [[q nan] b].
      intros H. injection H as <-. reflexivity.
    - destruct (lanbpro m n k times trans pol draw_p draw_r t p0) as [st0|]; [|discriminate].
      specialize (IH st0 eq_refl). unfold lanbpro_iteration.
      destruct (ls_nan st0); [discriminate|].
      destruct (final_r n k trans pol draw_r st0) as [[r a]|]; [|discriminate].
      destruct (final_p _ _ _ _ _ _ _ _ _) as [[q nan] b].
      intros H. injection H as <-. cbn. lia.
  Qed.

  Lemma run_inv t p0 st : (t < k)%nat -> normf n (trans p0) <> 0 ->
    exact_breakdowns m n k times trans pol draw_p draw_r t p0 ->
    lanbpro m n k times trans pol draw_p draw_r t p0 = Some st -> st_inv m n times trans st.
  Proof.
    intros Ht Hp [Hi Hs]. revert st Hs. induction t as [|t IH]; intros st Hs; cbn [lanbpro].
    - intros H. injection H as <-. apply init_inv; auto.
    - destruct (lanbpro m n k times trans pol draw_p draw_r t p0) as [st0|] eqn:E; [|discriminate].
      intros H. apply (step_inv m n k times trans pol draw_p draw_r Hadj st0 st); auto.
      + rewrite (run_iter _ _ _ E). lia.
      + apply IH; [lia| |reflexivity]. intros s st1 Hlt. apply Hs. lia.
      + apply (Hs t); auto.
  Qed.

  (** ** Linearity from adjointness *)
  Definition unit_at (l : nat) : fvec := fun i => if Nat.eqb i l then 1 else 0.
  Lemma ip_unit N x l : (l < N)%nat -> ip N x (unit_at l) = x l.
  Proof.
    intros Hl. unfold ip. rewrite (rsum_single (n := N) (k := l)); auto.
    - unfold unit_at. rewrite Nat.eqb_refl. ring.
    - intros i Hi Hne. unfold unit_at. destruct (Nat.eqb_spec i l); [lia|ring].
  Qed.
  Lemma times_comb d X q l : (l < m)%nat ->
    times (combine_cols d X q) l = rsum d (fun i => q i * times (column X i) l).
  Proof.
    intros Hl. rewrite <- (ip_unit m _ l Hl), Hadj, ip_comb_l. apply rsum_ext. intros i Hi.
    rewrite <- Hadj, ip_unit by auto. reflexivity.
  Qed.
  Lemma trans_comb d X q l : (l < n)%nat ->
    trans (combine_cols d X q) l = rsum d (fun i => q i * trans (column X i) l).
  Proof.
    intros Hl. rewrite <- (ip_unit n _ l Hl), ip_sym, <- Hadj, ip_sym, ip_comb_l. apply rsum_ext.
    intros i Hi. rewrite ip_sym, Hadj, ip_sym, ip_unit by auto. reflexivity.
  Qed.
  Lemma trans_ext y z l : (forall i, (i < m)%nat -> y i = z i) -> (l < n)%nat -> trans y l = trans z l.
  Proof.
    intros H Hl. rewrite <- (ip_unit n (trans y) l Hl), <- (ip_unit n (trans z) l Hl), !(ip_sym n _ (unit_at l)), <- !Hadj.
    now apply ip_ext.
  Qed.

  (** ** Ritz relations *)
  Lemma rsum_shift j (a b q x : nat -> R) : (1 <= j)%nat ->
    rsum j (fun i => q i * (a i * x i + (if Nat.ltb (i + 1) j then b (i + 1)%nat * x (i + 1)%nat else 0))) =
    rsum j (fun i => x i * bidiag_mv a b q i).
  Proof.
    intros Hj. destruct j as [|j]; [lia|]. cbn [rsum].
    destruct (Nat.ltb_spec (j + 1) (S j)); [lia|].
    rewrite (rsum_ext (n := j) _ (fun i => q i * a i * x i + q i * b (S i) * x (S i))).
    2:{ intros i Hi. destruct (Nat.ltb_spec (i + 1) (S j)); [|lia]. replace (i + 1)%nat with (S i) by lia. ring. }
    rewrite rsum_add.
    assert (E : rsum (S j) (fun i => x i * bidiag_mv a b q i) =
      rsum (S j) (fun i => q i * a i * x i) + rsum j (fun i => q i * b (S i) * x (S i))).
    { rewrite rsum_S_l. rewrite (rsum_S_l j (fun i => q i * a i * x i)).
      unfold bidiag_mv. rewrite (rsum_ext (n := j) _ (fun i => q (S i) * a (S i) * x (S i) + q i * b (S i) * x (S i)))
        by (intros; ring).
      rewrite rsum_add. ring. }
    cbn [rsum] in E. rewrite E. ring.
  Qed.

  Lemma ritz st : st_inv m n times trans st ->
    let j := ls_iterations st in
    (forall q l, (l < m)%nat -> times (combine_cols j (ls_V st) q) l =
       combine_cols j (ls_U st) (bidiag_mv (ls_alpha st) (ls_beta st) q) l +
       ls_beta st j * q (j - 1)%nat * next_u st l) /\
    (forall w l, (l < n)%nat -> trans (combine_cols j (ls_U st) w) l =
       combine_cols j (ls_V st) (bidiag_tmv j (ls_alpha st) (ls_beta st) w) l).
  Proof.
    intros (Hj & HU & HV & HZ & Hn & [RA RT] & RL).
    set (j := ls_iterations st) in *. cbn zeta. split.
    - intros q l Hl. rewrite times_comb by auto.
      rewrite (rsum_ext (n := j) _ (fun i => q i * (ls_alpha st i * ls_U st l i +
        (if Nat.ltb (i + 1) j then ls_beta st (i + 1)%nat * ls_U st l (i + 1)%nat else 0)) +
        (if Nat.eqb i (j - 1) then ls_beta st j * q (j - 1)%nat * next_u st l else 0))).
      + rewrite rsum_add. f_equal.
        * rewrite (rsum_shift j (ls_alpha st) (ls_beta st) q (fun i => ls_U st l i)) by auto. reflexivity.
        * rewrite (rsum_single (n := j) (k := (j - 1)%nat)); [now rewrite Nat.eqb_refl|lia|].
          intros i Hi Hne. destruct (Nat.eqb_spec i (j - 1)); [lia|auto].
      + intros i Hi. destruct (Nat.ltb_spec (i + 1) j).
        * destruct (Nat.eqb_spec i (j - 1)); [lia|]. rewrite RA by auto. ring.
        * destruct (Nat.eqb_spec i (j - 1)); [|lia]. subst i. rewrite RL by auto. ring.
    - intros w l Hl. rewrite trans_comb by auto.
      rewrite (rsum_ext (n := j) _ (fun i => w i * bidiag_mv (ls_alpha st) (ls_beta st) (fun i => ls_V st l i) i)).
      2:{ intros i Hi. rewrite RT by auto. unfold bidiag_mv. destruct i; ring. }
      rewrite <- (rsum_shift j (ls_alpha st) (ls_beta st) (fun i => ls_V st l i) w) by auto. reflexivity.
  Qed.

  Lemma iso N d X u : orthonormal N d X -> ip N (combine_cols d X u) (combine_cols d X u) = ip d u u.
  Proof.
    intros HX. rewrite ip_comb. unfold ip at 2. apply rsum_ext. intros i Hi.
    rewrite (rsum_single (n := d) (k := i)); auto.
    - rewrite HX, Nat.eqb_refl by auto. ring.
    - intros j Hj Hne. rewrite HX by auto. destruct (Nat.eqb_spec i j); [lia|ring].
  Qed.
  Lemma comb_scale d X s w w' i : (forall i, (i < d)%nat -> w i = s * w' i) ->
    combine_cols d X w i = s * combine_cols d X w' i.
  Proof.
    intros H. unfold combine_cols. rewrite <- rsum_mul_l. apply rsum_ext. intros j Hj. rewrite H by auto. ring.
  Qed.

  Lemma ritz_triplet st s q w : st_inv m n times trans st ->
    let j := ls_iterations st in
    ip j q q = 1 -> ip j w w = 1 ->
    (forall i, (i < j)%nat -> bidiag_mv (ls_alpha st) (ls_beta st) q i = s * w i) ->
    (forall i, (i < j)%nat -> bidiag_tmv j (ls_alpha st) (ls_beta st) w i = s * q i) ->
    let x := combine_cols j (ls_V st) q in let y := combine_cols j (ls_U st) w in
    ip n x x = 1 /\ ip m y y = 1 /\
    (forall l, (l < n)%nat -> trans y l = s * x l) /\
    let e := fun l => times x l - s * y l in
    (ls_nan st = false \/ ls_beta st j = 0 -> normf m e = Rabs (ls_beta st j * q (j - 1)%nat)).
  Proof.
    intros Hinv j Hq Hw H1 H2 x y. destruct (ritz st Hinv) as [R1 R2]. fold j in R1, R2.
    destruct Hinv as (Hj & HU & HV & HZ & Hn & [RA RT] & RL). fold j in HU, HV.
    split; [unfold x; now rewrite iso|]. split; [unfold y; now rewrite iso|]. split.
    - intros l Hl. unfold y. rewrite R2 by auto. now apply comb_scale.
    - intros e Hor. unfold normf. rewrite dotf_ip.
      assert (Ee : forall l, (l < m)%nat -> e l = ls_beta st j * q (j - 1)%nat * next_u st l).
      { intros l Hl. unfold e, x, y. rewrite R1 by auto. rewrite (comb_scale j (ls_U st) s _ w) by auto. ring. }
      rewrite (ip_ext m e (fun l => ls_beta st j * q (j - 1)%nat * next_u st l) e (fun l => ls_beta st j * q (j - 1)%nat * next_u st l)) by auto.
      rewrite ip_scale_l, ip_scale_r. rewrite <- sqrt_Rsqr_abs. f_equal. unfold Rsqr.
      destruct Hor as [Hf|Hb]; [|rewrite Hb; ring]. destruct (Hn Hf) as [Hu _]. rewrite Hu. ring.
  Qed.

  Lemma res_norm_breakdown st : st_inv m n times trans st ->
    ls_beta st (ls_iterations st) = 0 -> lansvd_res_norm m st = None \/ lansvd_res_norm m st = Some 1.
  Proof.
    intros (Hj & HU & HV & HZ & Hn & _) Hb. unfold lansvd_res_norm. destruct (ls_nan st); auto.
    right. destruct (Hn eq_refl) as [Hu _]. unfold next_u in Hu.
    rewrite Hb, safe_div_0 in Hu. unfold normf. rewrite dotf_ip, Hu. now rewrite sqrt_1.
  Qed.
  Lemma final_p_norm U j tiny p q nan b : final_p m k times pol draw_p U j tiny p = (q, nan, b) ->
    b <> 0 -> nan = false /\ b = normf m q.
  Proof.
    unfold final_p. destruct (Rltb _ _).
    - destruct (new_vec _ _ _ _ _ _ _); intros H; injection H as <- <- <-; intros E; exfalso; auto.
    - intros H. injection H as <- <- <-. auto.
  Qed.
  Lemma res_norm_regular st t p0 : lanbpro m n k times trans pol draw_p draw_r t p0 = Some st ->
    ls_beta st (ls_iterations st) <> 0 -> lansvd_res_norm m st = Some (ls_beta st (ls_iterations st)).
  Proof.
    destruct t as [|t]; cbn [lanbpro].
    - unfold lanbpro_init. destruct (final_p _ _ _ _ _ _ _ _ _) as [[q nan] b] eqn:Ef.
      intros H. injection H as <-. cbn [ls_beta ls_iterations]. unfold set_at. rewrite Nat.eqb_refl.
      intros Hb. destruct (final_p_norm _ _ _ _ _ _ _ Ef Hb) as [-> ->]. reflexivity.
    - destruct (lanbpro m n k times trans pol draw_p draw_r t p0) as [st0|]; [|discriminate].
      unfold lanbpro_iteration. destruct (ls_nan st0); [discriminate|].
      destruct (final_r n k trans pol draw_r st0) as [[r a]|]; [|discriminate].
      destruct (final_p _ _ _ _ _ _ _ _ _) as [[q nan] b] eqn:Ef.
      intros H. injection H as <-. cbn [ls_beta ls_iterations]. unfold set_at. rewrite Nat.eqb_refl.
      intros Hb. destruct (final_p_norm _ _ _ _ _ _ _ Ef Hb) as [-> ->]. reflexivity.
  Qed.

  (** ** The right vectors lie in the range of the adjoint *)
  Definition in_range (x : fvec) : Prop := exists y, forall l, (l < n)%nat -> x l = trans y l.
  Lemma range_lin a x b z : in_range x -> in_range z -> in_range (fun l => a * x l + b * z l).
  Proof.
    intros [y Hy] [w Hw].
    set (X := fun i j => match j with O => y i | _ => w i end).
    set (c := fun j => match j with O => a | _ => b end).
    exists (combine_cols 2 X c). intros l Hl. rewrite trans_comb by auto. cbn [rsum].
    change (column X 0) with y. change (column X 1) with w. rewrite Hy, Hw by auto. cbn. ring.
  Qed.
  Lemma range_ext x z : (forall l, (l < n)%nat -> x l = z l) -> in_range x -> in_range z.
  Proof. intros H [y Hy]. exists y. intros l Hl. rewrite <- H by auto. auto. Qed.
  Lemma range_trans y : in_range (trans y).
  Proof. exists y. auto. Qed.
  Lemma range_proj len c x : in_range c -> in_range x -> in_range (proj_out len c x).
  Proof.
    intros Hc Hx. apply range_ext with (fun l => 1 * x l + - dotf len c x * c l).
    - intros. unfold proj_out. ring.
    - now apply range_lin.
  Qed.
  Lemma range_zero x : (forall l, (l < n)%nat -> x l = 0) -> in_range x.
  Proof.
    intros H. apply range_ext with (fun l => 0 * trans x l + 0 * trans x l); [intros; rewrite H by auto; ring|].
    apply range_lin; apply range_trans.
  Qed.
  Lemma range_mgs q len kk X mask x : (forall c, in_range (column X c)) -> in_range x ->
    in_range (reorth_mgs q len kk X mask x).
  Proof.
    intros HX. revert x. induction q as [|q IH]; intros x Hx; cbn [reorth_mgs]; auto. apply IH.
    unfold mgs_pass. generalize (seq 0 kk) as l. intros l. revert x Hx.
    induction l as [|c l IHl]; intros x Hx; cbn [fold_left]; auto. apply IHl.
    destruct (mask c); auto. apply range_proj; auto.
  Qed.
  Lemma range_elr q len c x s : in_range c -> in_range x -> in_range (fst (do_elr q len c x s)).
  Proof.
    intros Hc. revert x s. induction q as [|q IH]; intros x s Hx; cbn [do_elr]; auto.
    apply IH. now apply range_proj.
  Qed.
  Lemma range_safe_div x a : in_range x -> in_range (safe_div x a).
  Proof.
    intros H. unfold safe_div. destruct (Reqb a 0); auto.
    apply range_ext with (fun l => / a * x l + 0 * x l); [intros; unfold Rdiv; ring|]. now apply range_lin.
  Qed.
  Lemma range_new_vec X j q : (forall c, in_range (column X c)) ->
    new_vec k pol n trans draw_r X j = Some q -> in_range q.
  Proof.
    intros HX. unfold new_vec.
    assert (H : forall left i, in_range (new_vec_loop k pol left n trans draw_r X j i)).
    { induction left as [|left IH]; intros i; cbn [new_vec_loop].
      - apply range_mgs; auto. apply range_trans.
      - match goal with |- context [if ?b then _ else _] => destruct b end; auto.
        apply range_mgs; auto. apply range_trans. }
    specialize (H 9%nat 0%nat). revert H. generalize (new_vec_loop k pol 9 n trans draw_r X j 0).
    intros x Hx. destruct (Reqb (normf n x) 0) eqn:E; [discriminate|]. intros H'. injection H' as <-.
    apply range_ext with (fun l => / normf n x * x l + 0 * x l); [intros; unfold Rdiv; ring|].
    now apply range_lin.
  Qed.
  Lemma range_set X c x : (forall c, in_range (column X c)) -> in_range x ->
    forall d, in_range (column (set_col X c x) d).
  Proof. intros HX Hx d. rewrite column_set. destruct (Nat.eqb d c); auto. Qed.

  Lemma run_range t p0 st : lanbpro m n k times trans pol draw_p draw_r t p0 = Some st ->
    forall c, in_range (column (ls_V st) c).
  Proof.
    revert st. induction t as [|t IH]; intros st; cbn [lanbpro].
    - assert (H : forall c, in_range (column (set_col (fun _ _ => 0) 0 (init_v m n trans p0)) c)).
      { apply range_set; [intros; now apply range_zero|]. apply range_safe_div, range_trans. }
      unfold lanbpro_init. destruct (final_p _ _ _ _ _ _ _ _ _) as [[q nan] b].
      intros E. injection E as <-. exact H.
    - destruct (lanbpro m n k times trans pol draw_p draw_r t p0) as [st0|]; [|discriminate].
      specialize (IH st0 eq_refl). unfold lanbpro_iteration. destruct (ls_nan st0); [discriminate|].
      destruct (final_r n k trans pol draw_r st0) as [[r a]|] eqn:Ef; [|discriminate].
      assert (Hr : in_range r).
      { unfold final_r in Ef.
        assert (Hc : in_range (cand_r n k trans pol st0)).
        { assert (Hl : in_range (fst (local_r n trans pol st0))).
          { unfold local_r. apply range_elr; [apply IH|].
            match goal with |- in_range (fun i => trans ?u i - ?b * ?v i) =>
              apply range_ext with (fun l => 1 * trans u l + - b * v l); [intros; ring|] end.
            apply range_lin; [apply range_trans|apply IH]. }
          unfold cand_r. destruct (mask_r pol (ls_iterations st0)); auto. now apply range_mgs. }
        destruct (Rltb _ _).
        - destruct (new_vec k pol n trans draw_r (ls_V st0) (ls_iterations st0)) as [q|] eqn:Eq; [|discriminate].
          injection Ef as <- <-. now apply range_new_vec in Eq.
        - injection Ef as <- <-. exact Hc. }
      assert (H : forall c, in_range (column (set_col (ls_V st0) (ls_iterations st0) (safe_div r a)) c)).
      { apply range_set; auto. now apply range_safe_div. }
      destruct (final_p _ _ _ _ _ _ _ _ _) as [[q nan] b].
      intros E. injection E as <-. exact H.
  Qed.

  Lemma on_span_le N d j X W : orthonormal N j X ->
    (forall c, (c < j)%nat -> in_span_of N d W (column X c)) -> (j <= d)%nat.
  Proof.
    intros HX HW. apply Nat.nlt_ge. intros Hlt.
    assert (Hc : exists C : nat -> nat -> R, forall c, (c < j)%nat -> forall i, (i < N)%nat -> X i c = combine_cols d W (C c) i).
    { clear HX Hlt. induction j as [|j IH].
      - exists (fun _ _ => 0). intros; lia.
      - destruct IH as [C HC]; [auto|]. destruct (HW j ltac:(lia)) as [u Hu].
        exists (fun c => if Nat.eqb c j then u else C c). intros c Hcj i Hi.
        destruct (Nat.eqb_spec c j) as [->|]; [apply Hu; auto|apply HC; auto; lia]. }
    destruct Hc as [C HC].
    destruct (kernel_nontrivial d j (fun r c => C c r) Hlt) as [w [[i0 [Hi0 Hw]] HB]].
    apply Hw.
    assert (Hz : forall i, (i < N)%nat -> combine_cols j X w i = 0).
    { intros i Hi. unfold combine_cols.
      rewrite (rsum_ext (n := j) _ (fun c => rsum d (fun r => W i r * (C c r * w c)))).
      - rewrite rsum_exchange. apply rsum_0'. intros r Hr. rewrite rsum_mul_l, HB by auto. ring.
      - intros c Hcj. rewrite HC by auto. unfold combine_cols. rewrite <- rsum_mul_r.
        apply rsum_ext. intros. ring. }
    pose proof (ip_comb_l N j X w (column X i0)) as E. rewrite (ip_zero_l N) in E by auto.
    rewrite (rsum_single (n := j) (k := i0)) in E; auto.
    - rewrite HX, Nat.eqb_refl in E by auto. lra.
    - intros c Hcj Hne. rewrite HX by auto. destruct (Nat.eqb_spec c i0); [lia|ring].
  Qed.

  Lemma span_ext N d W x z : (forall i, (i < N)%nat -> x i = z i) -> in_span_of N d W x -> in_span_of N d W z.
  Proof. intros H [u Hu]. exists u. intros i Hi. rewrite <- H by auto. auto. Qed.
End P.

Lemma start_zero m n k times trans pol draw_p p0 : adjoint_pair m n times trans ->
  normf n (trans p0) = 0 ->
  ip n (column (ls_V (lanbpro_init m n k times trans pol draw_p p0)) 0)
       (column (ls_V (lanbpro_init m n k times trans pol draw_p p0)) 0) = 0.
Proof.
  intros Hadj Ht.
  assert (E : column (ls_V (lanbpro_init m n k times trans pol draw_p p0)) 0 = init_v m n trans p0).
  { unfold lanbpro_init. destruct (final_p _ _ _ _ _ _ _ _ _) as [[q nan] b]. reflexivity. }
  rewrite E. clear E.
  assert (Hr : forall l, (l < n)%nat -> init_r m trans p0 l = 0).
  { intros l Hl. unfold init_r.
    rewrite (trans_ext m n times trans Hadj _ (combine_cols 1 (fun i _ => p0 i)
      (fun _ => if Reqb (normf m p0) 0 then 1 else / normf m p0)) l); auto.
    - rewrite (trans_comb m n times trans Hadj) by auto. cbn [rsum].
      change (column (fun i _ => p0 i) 0) with p0.
      rewrite (normf_zero _ _ Ht l Hl). ring.
    - intros i Hi. unfold combine_cols, init_u, safe_div. cbn [rsum].
      destruct (Reqb (normf m p0) 0); unfold Rdiv; ring. }
  assert (Hn0 : normf n (init_r m trans p0) = 0).
  { unfold normf. rewrite dotf_ip, ip_zero_l by auto. apply sqrt_0. }
  unfold init_v. rewrite Hn0, safe_div_0. now apply ip_zero_l.
Qed.

(** ** A small run: the identity on R^2 *)
Definition pol0 : policy := {| elr_r := fun _ => 0%nat; elr_p := fun _ => 0%nat;
  mask_r := fun _ => None; mask_p := fun _ => None; passes := 0; tiny_r := fun _ => / 2; tiny_p := fun _ => / 2 |}.
Definition e_0 : fvec := unit_at 0.
Definition e_1 : fvec := unit_at 1.
Definition idop (x : fvec) : fvec := x.

Lemma norm_e0 : normf 2 e_0 = 1.
Proof. transitivity (sqrt 1); [|apply sqrt_1]. unfold normf, dotf. f_equal. cbn. ring. Qed.
Lemma norm_e1 : normf 2 e_1 = 1.
Proof. transitivity (sqrt 1); [|apply sqrt_1]. unfold normf, dotf. f_equal. cbn. ring. Qed.
Lemma safe_div_1 x : safe_div x 1 = x.
Proof.
  unfold safe_div. destruct (Reqb_spec 1 0); [lra|]. apply functional_extensionality. intros. field.
Qed.
Lemma ex_u : init_u 2 e_0 = e_0.
Proof. unfold init_u. rewrite norm_e0. apply safe_div_1. Qed.
Lemma ex_r : init_r 2 idop e_0 = e_0.
Proof. unfold init_r. rewrite ex_u. reflexivity. Qed.
Lemma ex_v : init_v 2 2 idop e_0 = e_0.
Proof. unfold init_v. rewrite ex_r, norm_e0. apply safe_div_1. Qed.
Lemma ex_p : init_p 2 2 idop idop pol0 e_0 = fun _ => 0.
Proof.
  unfold init_p. rewrite ex_u, ex_r, ex_v, norm_e0. cbn [passes pol0 do_elr fst].
  apply functional_extensionality. intros i. unfold idop. ring.
Qed.
Lemma norm_0 n : normf n (fun _ => 0) = 0.
Proof. unfold normf. rewrite dotf_ip, ip_zero_l by auto. apply sqrt_0. Qed.

Lemma ex_new : new_vec 2 pol0 2 idop (fun _ => e_1) (set_col (fun _ _ => 0) 0 e_0) 1 = Some e_1.
Proof.
  assert (El : new_vec_loop 2 pol0 9 2 idop (fun _ => e_1) (set_col (fun _ _ => 0) 0 e_0) 1 0 = e_1).
  { cbn [new_vec_loop passes pol0].
    assert (Em : reorth_mgs 1 2 2 (set_col (fun _ _ => 0) 0 e_0) (fun c => Nat.ltb c 1) (idop e_1) = e_1).
    { apply mgs_id. intros c Hc. apply Nat.ltb_lt in Hc. assert (c = 0%nat) by lia. subst c.
      unfold ip. cbn. unfold idop, e_1, unit_at. cbn. ring. }
    rewrite Em, norm_e1. destruct (Rltb_spec 1 (/ 10 ^ 10)) as [H|H]; [|reflexivity].
    exfalso. assert (/ 10 ^ 10 <= / 1); [|lra]. apply Rinv_le_contravar; cbn; lra. }
  unfold new_vec. rewrite El, norm_e1. destruct (Reqb_spec 1 0); [lra|]. f_equal.
  apply functional_extensionality. intros. field.
Qed.

Definition ex_st : lan_state := lanbpro_init 2 2 2 idop idop pol0 (fun _ => e_1) e_0.
Lemma ex_final : final_p 2 2 idop pol0 (fun _ => e_1) (set_col (fun _ _ => 0) 0 e_0) 1 (/ 2) (fun _ => 0) = (e_1, false, 0).
Proof.
  unfold final_p. rewrite norm_0, ex_new. destruct (Rltb_spec 0 (/ 2)); [reflexivity|lra].
Qed.
Lemma ex_st_eq : ex_st = {| ls_p := e_1; ls_nan := false; ls_U := set_col (fun _ _ => 0) 0 e_0;
  ls_V := set_col (fun _ _ => 0) 0 e_0; ls_alpha := set_at (fun _ => 0) 0 1;
  ls_beta := set_at (set_at (fun _ => 0) 0 1) 1 0; ls_iterations := 1 |}.
Proof.
  unfold ex_st, lanbpro_init. rewrite ex_u, ex_v, ex_r, ex_p, norm_e0.
  change (tiny_p pol0 0) with (/ 2). rewrite ex_final. reflexivity.
Qed.
Lemma ex_next : next_u ex_st = e_1.
Proof. rewrite ex_st_eq. unfold next_u. cbn [ls_p ls_beta ls_iterations]. apply safe_div_0. Qed.
Lemma ex_cand_r : cand_r 2 2 idop pol0 ex_st = e_1.
Proof.
  unfold cand_r, local_r. rewrite ex_next. rewrite ex_st_eq. cbn [ls_iterations mask_r pol0 elr_r do_elr fst ls_beta ls_V].
  apply functional_extensionality. intros i. unfold set_at, idop. cbn [Nat.eqb]. ring.
Qed.
Lemma ex_final_r : final_r 2 2 idop pol0 (fun _ => e_1) ex_st = Some (e_1, 1).
Proof.
  unfold final_r. rewrite ex_cand_r, norm_e1. destruct (Rltb_spec 1 (tiny_r pol0 (ls_iterations ex_st))) as [H|H]; auto.
  cbn in H. lra.
Qed.
Lemma ex_cand_p : cand_p 2 2 idop pol0 ex_st e_1 1 = fun _ => 0.
Proof.
  unfold cand_p, local_p. rewrite ex_next. cbn [mask_p pol0 elr_p do_elr fst].
  apply functional_extensionality. intros i. unfold idop. ring.
Qed.
Lemma ex_exact : exact_breakdowns 2 2 2 idop idop pol0 (fun _ => e_1) (fun _ => e_1) 1 e_0.
Proof.
  split.
  - unfold sharp_init. rewrite ex_p, norm_0. cbn [tiny_p pol0]. split; intros; lra.
  - intros s st Hs. assert (s = 0%nat) by lia. subst s. cbn [lanbpro]. fold ex_st. intros H. injection H as <-.
    split.
    + rewrite ex_cand_r, norm_e1. cbn [tiny_r pol0]. split; intros; lra.
    + intros r a. rewrite ex_final_r. intros H. injection H as <- <-.
      rewrite safe_div_1, ex_cand_p, norm_0. cbn [tiny_p pol0]. split; intros; lra.
Qed.
Lemma ex_run : exists st, lanbpro 2 2 2 idop idop pol0 (fun _ => e_1) (fun _ => e_1) 1 e_0 = Some st /\
  ls_beta st 2%nat = 0.
Proof.
  cbn [lanbpro]. fold ex_st. unfold lanbpro_iteration. rewrite ex_final_r.
  replace (ls_nan ex_st) with false by (rewrite ex_st_eq; reflexivity).
  rewrite safe_div_1, ex_cand_p.
  destruct (final_p 2 2 idop pol0 (fun _ => e_1) (set_col (ls_U ex_st) (ls_iterations ex_st) (next_u ex_st))
    (ls_iterations ex_st + 1) (tiny_p pol0 (ls_iterations ex_st)) (fun _ => 0)) as [[q nan] b] eqn:E.
  eexists. split; [reflexivity|]. cbn [ls_beta].
  replace (ls_iterations ex_st) with 1%nat by (rewrite ex_st_eq; reflexivity).
  unfold set_at. cbn [Nat.eqb Nat.add]. unfold final_p in E. rewrite norm_0 in E.
  destruct (Rltb_spec 0 (tiny_p pol0 (ls_iterations ex_st))) as [H|H].
  - destruct (new_vec _ _ _ _ _ _ _); injection E; auto.
  - cbn in H. lra.
Qed.
