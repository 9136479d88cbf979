(** Lemmas about Lanczos bidiagonalisation. *)
From Coq Require Import List Arith Bool Reals Lia Lra Psatz FunctionalExtensionality.
From Verif Require Import Vec RVec Loop BsblModel LinAlg SubspModel SubspSpec SubspProofs LanModel LanSpec.
Import ListNotations.
Local Open Scope R_scope.

Lemma dotf_ip n a b : dotf n a b = ip n a b.
Proof. reflexivity. Qed.
Lemma ip_nonneg n a : 0 <= ip n a a.
Proof. apply rsum_pos. intros; nra. Qed.
Lemma normf_sq n a : normf n a * normf n a = ip n a a.
Proof. apply sqrt_sqrt, ip_nonneg. Qed.
Lemma normf_nonneg n a : 0 <= normf n a.
Proof. apply sqrt_pos. Qed.
Lemma normf_zero n a : normf n a = 0 -> forall i, (i < n)%nat -> a i = 0.
Proof.
  intros H i Hi. assert (E : ip n a a = 0) by (rewrite <- normf_sq, H; ring).
  assert (Hnn : forall i, (i < n)%nat -> 0 <= a i * a i) by (intros; nra).
  pose proof (@rsum_eq0 n _ Hnn E i Hi) as H0. cbn beta in H0. nra.
Qed.
Lemma ip_sub_l n a b c : ip n (fun i => a i - b i) c = ip n a c - ip n b c.
Proof. unfold ip. rewrite <- rsum_sub. apply rsum_ext. intros. ring. Qed.
Lemma ip_sub_r n a b c : ip n c (fun i => a i - b i) = ip n c a - ip n c b.
Proof. unfold ip. rewrite <- rsum_sub. apply rsum_ext. intros. ring. Qed.
Lemma ip_scale_l n a c v : ip n (fun i => c * v i) a = c * ip n v a.
Proof. unfold ip. rewrite <- rsum_mul_l. apply rsum_ext. intros. ring. Qed.
Lemma ip_zero_l n a b : (forall i, (i < n)%nat -> a i = 0) -> ip n a b = 0.
Proof. intros H. apply rsum_0'. intros. rewrite H by auto. ring. Qed.
Lemma Rltb_false_ge x y : Rltb x y = false -> y <= x.
Proof. destruct (Rltb_spec x y); [discriminate|lra]. Qed.

Lemma safe_div_0 x : safe_div x 0 = x.
Proof. unfold safe_div. destruct (Reqb_spec 0 0); [auto|lra]. Qed.
Lemma safe_div_mul x a l : a <> 0 -> a * safe_div x a l = x l.
Proof. intros Ha. unfold safe_div. destruct (Reqb_spec a 0); [contradiction|]. field. auto. Qed.
Lemma safe_div_unit n x : normf n x <> 0 -> ip n (safe_div x (normf n x)) (safe_div x (normf n x)) = 1.
Proof.
  intros H. unfold safe_div. destruct (Reqb_spec (normf n x) 0); [contradiction|].
  unfold ip. rewrite (rsum_ext (n := n) _ (fun i => / normf n x * / normf n x * (x i * x i)))
    by (intros; unfold Rdiv; ring).
  rewrite rsum_mul_l. fold (ip n x x). change (/ normf n x * / normf n x * ip n x x = 1).
  rewrite <- normf_sq. field. auto.
Qed.
Lemma safe_div_orth n c x a : ip n c x = 0 -> ip n c (safe_div x a) = 0.
Proof.
  intros H. unfold safe_div. destruct (Reqb a 0); auto. unfold ip in *.
  rewrite (rsum_ext (n := n) _ (fun i => / a * (c i * x i))) by (intros; unfold Rdiv; ring).
  rewrite rsum_mul_l, H. ring.
Qed.

Lemma proj_out_id n c x : ip n c x = 0 -> proj_out n c x = x.
Proof. intros H. apply functional_extensionality. intros i. unfold proj_out. rewrite dotf_ip, H. ring. Qed.
Lemma fold_id n X mask l x : (forall c, mask c = true -> ip n (column X c) x = 0) ->
  fold_left (fun x c => if mask c then proj_out n (col X c) x else x) l x = x.
Proof.
  intros H. induction l as [|c l IH]; cbn [fold_left]; auto.
  destruct (mask c) eqn:E; auto. now rewrite (proj_out_id n (col X c) x (H c E)).
Qed.
Lemma mgs_id q n k X mask x : (forall c, mask c = true -> ip n (column X c) x = 0) ->
  reorth_mgs q n k X mask x = x.
Proof.
  intros H. induction q as [|q IH]; cbn [reorth_mgs]; auto. unfold mgs_pass. rewrite fold_id; auto.
Qed.
Lemma elr_id q n c x s : ip n c x = 0 -> do_elr q n c x s = (x, s).
Proof.
  intros H. revert s. induction q as [|q IH]; intros s; cbn [do_elr]; auto.
  rewrite proj_out_id, dotf_ip, H, Rplus_0_r by auto. apply IH.
Qed.

Lemma proj_out_ip n c d x : ip n d (proj_out n c x) = ip n d x - ip n c x * ip n d c.
Proof. unfold proj_out. rewrite ip_sub_r, ip_scale_r. reflexivity. Qed.

Lemma mgs_pass_orth n k X j x : orthonormal n j X -> (j <= k)%nat ->
  forall c, (c < j)%nat -> ip n (column X c) (mgs_pass n k X (fun c => Nat.ltb c j) x) = 0.
Proof.
  intros HX Hjk.
  assert (H : forall t, (t <= k)%nat -> forall c, (c < j)%nat -> (c < t)%nat ->
    ip n (column X c) (fold_left (fun x c => if Nat.ltb c j then proj_out n (col X c) x else x) (seq 0 t) x) = 0).
  { induction t as [|t IH]; intros Ht c Hc Hct; [lia|].
    rewrite seq_S, fold_left_app. cbn [fold_left Nat.add].
    destruct (Nat.ltb_spec t j) as [Hl|Hl].
    - rewrite proj_out_ip. change (col X t) with (column X t). rewrite HX by auto.
      destruct (Nat.eqb_spec c t) as [->|Hne]; [ring|]. rewrite IH by lia. ring.
    - apply IH; lia. }
  intros c Hc. apply H; lia.
Qed.
Lemma mgs_orth q n k X j x : orthonormal n j X -> (j <= k)%nat ->
  forall c, (c < j)%nat -> ip n (column X c) (reorth_mgs (S q) n k X (fun c => Nat.ltb c j) x) = 0.
Proof.
  intros HX Hjk c Hc. cbn [reorth_mgs]. rewrite mgs_id.
  - now apply mgs_pass_orth.
  - intros d Hd. apply Nat.ltb_lt in Hd. now apply mgs_pass_orth.
Qed.

Section P.
  Variables (m n k : nat).
  Variables (times trans : fvec -> fvec).
  Variable pol : policy.
  Variables (draw_p draw_r : nat -> fvec).
  Hypothesis Hadj : adjoint_pair m n times trans.

  Lemma new_loop_orth left len op draw X j : orthonormal len j X -> (j <= k)%nat ->
    forall i c, (c < j)%nat -> ip len (column X c) (new_vec_loop k pol left len op draw X j i) = 0.
  Proof.
    intros HX Hjk. induction left as [|left IH]; intros i c Hc; cbn [new_vec_loop].
    - now apply mgs_orth.
    - match goal with |- context [if ?b then _ else _] => destruct b end; [now apply IH|now apply mgs_orth].
  Qed.
  Lemma new_vec_spec len op draw X j q : orthonormal len j X -> (j <= k)%nat ->
    new_vec k pol len op draw X j = Some q ->
    ip len q q = 1 /\ forall c, (c < j)%nat -> ip len (column X c) q = 0.
  Proof.
    intros HX Hjk. unfold new_vec. set (x := new_vec_loop _ _ _ _ _ _ _ _ _).
    destruct (Reqb (normf len x) 0) eqn:E; [discriminate|]. intros H. injection H as <-.
    assert (Hne : normf len x <> 0).
    { intros E'. rewrite E' in E. destruct (Reqb_spec 0 0); [discriminate|lra]. }
    assert (Es : (fun i => x i / normf len x) = safe_div x (normf len x)).
    { unfold safe_div. now rewrite E. }
    rewrite Es. split; [now apply safe_div_unit|]. intros c Hc. apply safe_div_orth.
    now apply new_loop_orth.
  Qed.

  Definition st_inv (st : lan_state) : Prop :=
    let j := ls_iterations st in let U := ls_U st in let V := ls_V st in
    let u := next_u st in
    (1 <= j)%nat /\ orthonormal m j U /\ orthonormal n j V /\
    (forall l c, (j <= c)%nat -> U l c = 0 /\ V l c = 0) /\
    (ls_nan st = false -> ip m u u = 1 /\ forall c, (c < j)%nat -> ip m (column U c) u = 0) /\
    bidiagonalises m n times trans U V (ls_alpha st) (ls_beta st) j /\
    (forall l, (l < m)%nat -> times (column V (j - 1)) l =
       ls_alpha st (j - 1)%nat * U l (j - 1)%nat + ls_beta st j * u l).

  Lemma final_p_spec U j tiny p q nan b : orthonormal m j U -> (j <= k)%nat ->
    (normf m p < tiny <-> normf m p = 0) -> (forall c, (c < j)%nat -> ip m (column U c) p = 0) ->
    final_p m k times pol draw_p U j tiny p = (q, nan, b) ->
    (nan = false -> ip m (safe_div q b) (safe_div q b) = 1 /\
       forall c, (c < j)%nat -> ip m (column U c) (safe_div q b) = 0) /\
    forall l, (l < m)%nat -> p l = b * safe_div q b l.
  Proof.
    intros HU Hj Hsh Ho. unfold final_p. destruct (Rltb_spec (normf m p) tiny) as [Hl|Hl].
    - assert (Hz : forall q l, (l < m)%nat -> p l = 0 * safe_div q 0 l).
      { intros q0 l Hlm. apply Hsh in Hl. rewrite (normf_zero _ _ Hl l Hlm). ring. }
      destruct (new_vec k pol m times draw_p U j) as [w|] eqn:Eq; intros H; injection H as <- <- <-.
      + destruct (new_vec_spec _ _ _ _ _ _ HU Hj Eq) as [Hq Hqo]. split; auto.
        intros _. rewrite safe_div_0. auto.
      + split; [discriminate|auto].
    - intros H; injection H as <- <- <-.
      assert (Hne : normf m p <> 0) by (intros E; apply Hl, Hsh, E). split.
      + intros _. split; [now apply safe_div_unit|]. intros. apply safe_div_orth. auto.
      + intros l Hlm. now rewrite safe_div_mul.
  Qed.

  Lemma on1 N x : ip N x x = 1 -> orthonormal N 1 (set_col (fun _ _ => 0) 0 x).
  Proof. intros H i j Hi Hj. assert (i = 0%nat) by lia. assert (j = 0%nat) by lia. subst. exact H. Qed.

  Lemma column_set X c x i : column (set_col X c x) i = if Nat.eqb i c then x else column X i.
  Proof. unfold column, set_col. destruct (Nat.eqb i c); reflexivity. Qed.

  Lemma init_inv p0 : (1 <= k)%nat -> normf n (trans p0) <> 0 -> sharp_init m n times trans pol p0 ->
    st_inv (lanbpro_init m n k times trans pol draw_p p0).
  Proof.
    intros Hk Ht Hsh. unfold lanbpro_init.
    set (u := init_u m p0). set (r := init_r m trans p0). set (v := init_v m n trans p0).
    assert (Hp0 : normf m p0 <> 0).
    { intros E. apply Ht. unfold normf. rewrite dotf_ip, <- Hadj, ip_sym, ip_zero_l; [apply sqrt_0|].
      now apply normf_zero. }
    assert (Hu : ip m u u = 1) by now apply safe_div_unit.
    assert (Hr : normf n r <> 0).
    { intros E. apply Ht. unfold normf. rewrite dotf_ip.
      replace (ip n (trans p0) (trans p0)) with (normf m p0 * ip n (trans p0) r); [rewrite (ip_sym n _ r), (ip_zero_l n r), Rmult_0_r; [apply sqrt_0|now apply normf_zero]|].
      rewrite <- !Hadj. unfold r, init_r. rewrite <- Hadj, <- ip_scale_r. apply ip_ext; auto.
      intros i Hi. unfold init_u. apply safe_div_mul. auto. }
    assert (Hv : ip n v v = 1) by now apply safe_div_unit.
    assert (Hrv : forall l, normf n r * v l = r l) by (intros; now apply safe_div_mul).
    assert (Hup : ip m u (fun i => times v i - normf n r * u i) = 0).
    { rewrite ip_sub_r, ip_scale_r, Hu, ip_sym, Hadj. fold r. change (trans u) with r.
      rewrite (ip_ext n v v r (fun l => normf n r * v l)) by (intros; auto).
      rewrite ip_scale_r, Hv. ring. }
    assert (Ep : init_p m n times trans pol p0 = fun i => times v i - normf n r * u i).
    { unfold init_p. fold u r v. now rewrite elr_id. }
    unfold sharp_init in Hsh. rewrite Ep in *. set (p := fun i => times v i - normf n r * u i) in *.
    assert (HU : orthonormal m 1 (set_col (fun _ _ => 0) 0 u)) by now apply on1.
    assert (HV : orthonormal n 1 (set_col (fun _ _ => 0) 0 v)) by now apply on1.
    assert (HT : forall l, (l < n)%nat -> trans u l = normf n r * v l + 0) by (intros l Hl; rewrite Hrv; unfold r; fold u; change (init_r m trans p0) with (trans u); ring).
    destruct (final_p m k times pol draw_p (set_col (fun _ _ => 0) 0 u) 1 (tiny_p pol 0) p) as [[q nan] b] eqn:Ef.
    assert (Ho : forall c, (c < 1)%nat -> ip m (column (set_col (fun _ _ => 0) 0 u) c) p = 0).
    { intros c Hc. assert (c = 0%nat) by lia. subst c. exact Hup. }
    destruct (final_p_spec _ _ _ _ _ _ _ HU Hk Hsh Ho Ef) as [F1 F2].
    unfold st_inv, next_u. cbn [ls_iterations ls_U ls_V ls_alpha ls_beta ls_p ls_nan].
    change (set_at (set_at (fun _ => 0) 0 (normf m p0)) 1 b 1%nat) with b.
    split; [lia|]. split; [auto|]. split; [auto|]. split.
    { intros l c Hc. unfold set_col. destruct (Nat.eqb_spec c 0); [lia|auto]. }
    split; [auto|]. split.
    { split; [intros i Hi; lia|]. intros i Hi. assert (i = 0%nat) by lia. subst i. exact HT. }
    intros l Hlm. rewrite <- F2 by auto.
    change (times v l = normf n r * u l + p l). unfold p. ring.
  Qed.

  Lemma on_snoc N j X x : orthonormal N j X -> ip N x x = 1 ->
    (forall c, (c < j)%nat -> ip N (column X c) x = 0) -> orthonormal N (j + 1) (set_col X j x).
  Proof.
    intros HX Hx Ho a b Ha Hb. rewrite !column_set.
    destruct (Nat.eqb_spec a j), (Nat.eqb_spec b j); subst.
    - now rewrite Nat.eqb_refl.
    - rewrite ip_sym, Ho by lia. destruct (Nat.eqb_spec j b); [lia|auto].
    - rewrite Ho by lia. destruct (Nat.eqb_spec a j); [lia|auto].
    - apply HX; lia.
  Qed.

  Lemma step_inv st st' : (ls_iterations st < k)%nat -> st_inv st -> sharp m n k times trans pol draw_r st ->
    lanbpro_iteration m n k times trans pol draw_p draw_r st = Some st' -> st_inv st'.
  Proof.
    intros Hjk Hinv Hsh. unfold lanbpro_iteration.
    destruct Hinv as (Hj & HU & HV & HZ & Hn & [RA RT] & RL).
    destruct (ls_nan st); [discriminate|]. destruct (Hn eq_refl) as [Hu HuU].
    destruct Hsh as [Hsr Hsp].
    set (j := ls_iterations st) in *. set (u := next_u st) in *. set (b := ls_beta st j) in *.
    set (U := ls_U st) in *. set (V := ls_V st) in *.
    set (r0 := fun i => trans u i - b * col V (j - 1) i).
    (* r is orthogonal to the columns of V *)
    assert (HrV : forall c, ip n (column V c) r0 = 0).
    { intros c. destruct (Nat.lt_ge_cases c j) as [Hc|Hc].
      - unfold r0. rewrite ip_sub_r, ip_scale_r, <- Hadj. change (col V (j - 1)) with (column V (j - 1)).
        rewrite HV by lia. destruct (Nat.eqb_spec c (j - 1)) as [->|Hne].
        + rewrite (ip_ext m (times (column V (j - 1))) (fun l => ls_alpha st (j - 1)%nat * U l (j - 1)%nat + b * u l) u u) by auto.
          rewrite (ip_lin2 m _ (fun l => U l (j - 1)%nat)), Hu.
          change (fun l => U l (j - 1)%nat) with (column U (j - 1)). rewrite HuU by lia. ring.
        + rewrite (ip_ext m (times (column V c)) (fun l => ls_alpha st c * U l c + ls_beta st (c + 1)%nat * U l (c + 1)%nat) u u) by (intros; auto; apply RA; auto; lia).
          rewrite (ip_lin2 m _ (fun l => U l c) _ (fun l => U l (c + 1)%nat)).
          change (fun l => U l c) with (column U c). change (fun l => U l (c + 1)%nat) with (column U (c + 1)).
          rewrite !HuU by lia. ring.
      - apply ip_zero_l. intros i Hi. apply HZ. auto. }
    assert (Elr : local_r n trans pol st = (r0, 0)).
    { unfold local_r. fold j V u b. apply elr_id. exact (HrV (j - 1)%nat). }
    assert (Ecr : cand_r n k trans pol st = r0).
    { unfold cand_r. rewrite Elr. cbn [fst]. destruct (mask_r pol (ls_iterations st)); auto.
      apply mgs_id. auto. }
    rewrite Ecr in Hsr. rewrite Elr. cbn [snd]. rewrite Rplus_0_r.
    (* the new right vector *)
    destruct (final_r n k trans pol draw_r st) as [[r a]|] eqn:Ef; [|discriminate].
    assert (Hv : let v := safe_div r a in ip n v v = 1 /\ (forall c, (c < j)%nat -> ip n (column V c) v = 0) /\
      forall l, (l < n)%nat -> trans u l = a * v l + b * V l (j - 1)%nat).
    { unfold final_r in Ef. rewrite Ecr in Ef. fold j V in Ef.
      destruct (Rltb_spec (normf n r0) (tiny_r pol j)) as [Hl|Hl].
      - destruct (new_vec k pol n trans draw_r V j) as [q|] eqn:Eq; [|discriminate].
        injection Ef as <- <-. rewrite safe_div_0.
        destruct (new_vec_spec _ _ _ _ _ _ HV ltac:(lia) Eq) as [Hq Hqo].
        cbn zeta. split; [auto|]. split; [auto|]. intros l Hln. apply Hsr in Hl.
        pose proof (normf_zero _ _ Hl l Hln) as Hz. unfold r0, col in Hz. lra.
      - injection Ef as <- <-. assert (Hne : normf n r0 <> 0) by (intros E; apply Hl, Hsr, E).
        cbn zeta. split; [now apply safe_div_unit|]. split; [intros; apply safe_div_orth; auto|].
        intros l Hln. rewrite safe_div_mul by auto. unfold r0, col. ring. }
    set (v := safe_div r a) in *. cbn zeta in Hv. destruct Hv as (Hv & HvV & HTu).
    specialize (Hsp r a eq_refl). fold v j in Hsp.
    set (p0 := fun i => times v i - a * u i).
    assert (HpU : forall c, (c < j)%nat -> ip m (column U c) p0 = 0).
    { intros c Hc. unfold p0. rewrite ip_sub_r, ip_scale_r, HuU, ip_sym, Hadj by auto.
      destruct c as [|c].
      - rewrite (ip_ext n v v (trans (column U 0)) (fun l => ls_alpha st 0%nat * V l 0%nat + 0 * V l 0%nat)) by
          (intros; auto; rewrite (RT 0%nat) by (auto; lia); ring).
        rewrite ip_sym, (ip_lin2 n _ (fun l => V l 0%nat) 0 (fun l => V l 0%nat)).
        change (fun l => V l 0%nat) with (column V 0). rewrite HvV by lia. ring.
      - rewrite (ip_ext n v v (trans (column U (S c))) (fun l => ls_alpha st (S c) * V l (S c) + ls_beta st (S c) * V l c)) by
          (intros; auto; rewrite (RT (S c)) by (auto; lia); ring).
        rewrite ip_sym, (ip_lin2 n _ (fun l => V l (S c)) _ (fun l => V l c)).
        change (fun l => V l (S c)) with (column V (S c)). change (fun l => V l c) with (column V c).
        rewrite !HvV by lia. ring. }
    assert (Hpu : ip m u p0 = 0).
    { unfold p0. rewrite ip_sub_r, ip_scale_r, Hu, ip_sym, Hadj.
      rewrite (ip_ext n v v (trans u) (fun l => a * v l + b * V l (j - 1)%nat)) by auto.
      rewrite ip_sym, (ip_lin2 n _ v _ (fun l => V l (j - 1)%nat)).
      change (fun l => V l (j - 1)%nat) with (column V (j - 1)).
      rewrite Hv, HvV by lia. ring. }
    assert (HpU' : forall c, ip m (column (set_col U j u) c) p0 = 0).
    { intros c. rewrite column_set. destruct (Nat.eqb_spec c j); auto.
      destruct (Nat.lt_ge_cases c j) as [Hc|Hc]; auto.
      apply ip_zero_l. intros i Hi. apply HZ. auto. }
    assert (Elp : local_p m times pol st v a = (p0, 0)).
    { unfold local_p. fold u. apply elr_id. exact Hpu. }
    assert (Ecp : cand_p m k times pol st v a = p0).
    { unfold cand_p. rewrite Elp. cbn [fst]. destruct (mask_p pol (ls_iterations st)); auto.
      apply mgs_id. auto. }
    rewrite Ecp in *. rewrite Elp. cbn [snd]. rewrite Rplus_0_r.
    set (alpha := set_at (ls_alpha st) j a).
    assert (HUn : orthonormal m (j + 1) (set_col U j u)) by now apply on_snoc.
    assert (HVn : orthonormal n (j + 1) (set_col V j v)) by now apply on_snoc.
    (* everything but the last relation *)
    assert (Hcom : forall bl, let beta := set_at (set_at (ls_beta st) j b) (j + 1) bl in
      (forall l c, (j + 1 <= c)%nat -> set_col U j u l c = 0 /\ set_col V j v l c = 0) /\
      bidiagonalises m n times trans (set_col U j u) (set_col V j v) alpha beta (j + 1)).
    { intros bl beta.
      assert (Eb : forall i, (i <= j)%nat -> beta i = ls_beta st i).
      { intros i Hi. unfold beta, set_at. destruct (Nat.eqb_spec i (j + 1)); [lia|].
        destruct (Nat.eqb_spec i j); subst; auto. }
      assert (Ea : forall i, (i < j)%nat -> alpha i = ls_alpha st i).
      { intros i Hi. unfold alpha, set_at. destruct (Nat.eqb_spec i j); [lia|auto]. }
      assert (Ea' : alpha j = a) by (unfold alpha, set_at; now rewrite Nat.eqb_refl).
      assert (EU : forall l i, (i < j)%nat -> set_col U j u l i = U l i).
      { intros l i Hi. unfold set_col. destruct (Nat.eqb_spec i j); [lia|auto]. }
      assert (EV : forall l i, (i < j)%nat -> set_col V j v l i = V l i).
      { intros l i Hi. unfold set_col. destruct (Nat.eqb_spec i j); [lia|auto]. }
      assert (EU' : forall l, set_col U j u l j = u l) by (intros; unfold set_col; now rewrite Nat.eqb_refl).
      assert (EV' : forall l, set_col V j v l j = v l) by (intros; unfold set_col; now rewrite Nat.eqb_refl).
      split; [|split].
      - intros l c Hc. unfold set_col. destruct (Nat.eqb_spec c j); [lia|]. apply HZ. lia.
      - intros i Hi l Hl. rewrite column_set. destruct (Nat.eqb_spec i j); [lia|].
        rewrite Ea, EU, Eb by lia. destruct (Nat.eq_dec (i + 1) j) as [E|E].
        + rewrite E, EU'. replace i with (j - 1)%nat by lia. apply RL. auto.
        + rewrite EU by lia. apply RA; auto; lia.
      - intros i Hi l Hl. rewrite column_set. destruct (Nat.eqb_spec i j) as [->|Hne].
        + rewrite Ea', EV'. destruct j as [|j'] eqn:Ej; [lia|].
          rewrite EV, Eb by lia. rewrite HTu by auto. replace (S j' - 1)%nat with j' by lia.
          reflexivity.
        + rewrite Ea, EV by lia. destruct i as [|i]; [apply (RT 0%nat); auto; lia|].
          rewrite EV, Eb by lia. apply (RT (S i)); auto; lia. }
    destruct (final_p m k times pol draw_p (set_col U j u) (j + 1) (tiny_p pol j) p0) as [[q nan] bl] eqn:Eq.
    destruct (final_p_spec _ _ _ _ _ _ _ HUn ltac:(lia) Hsp ltac:(auto) Eq) as [F1 F2].
    intros H. injection H as <-.
    unfold st_inv, next_u. cbn [ls_iterations ls_U ls_V ls_alpha ls_beta ls_p ls_nan].
    assert (Ebl : set_at (set_at (ls_beta st) j b) (j + 1) bl (j + 1)%nat = bl)
      by (unfold set_at; now rewrite Nat.eqb_refl).
    rewrite Ebl. destruct (Hcom bl) as [Hc1 Hc2].
    split; [lia|]. split; [auto|]. split; [auto|]. split; [auto|].
    split; [auto|]. split; [auto|].
    intros l Hl. rewrite <- F2 by auto. replace (j + 1 - 1)%nat with j by lia.
    rewrite column_set, Nat.eqb_refl. unfold alpha, set_at, set_col. rewrite Nat.eqb_refl.
    unfold p0. ring.
  Qed.
End P.
