(** Proximal operators, Moreau envelopes, centred l2 balls, indicators. *)
From Coq Require Import List Arith Bool Lia Reals Lra Psatz.
From Verif Require Import Scalar Vec Loop RVec RMat XReal OptSpec OptModel OptProofs OptProofs2.
Import ListNotations.
Set Implicit Arguments.
Local Open Scope R_scope.

Definition strong (n : nat) (dom : vec -> Prop) (f : vec -> R) (t : R) (x p : vec) : Prop :=
  length p = n /\ dom p /\
  forall z, length z = n -> dom z -> prox_obj f t x p + / 2 * nrm2 (rsub z p) <= prox_obj f t x z.

Lemma strong_min n dom f t x p : strong n dom f t x p -> unique_minimiser n dom (prox_obj f t x) p.
Proof.
  intros [H1 [H2 H3]]. split; [auto|]. split; [auto|]. intros z Hz Dz. specialize (H3 z Hz Dz).
  pose proof (nrm2_pos (rsub z p)) as Hp. split; [lra|]. intros H.
  apply rdot_sub_eq0; [congruence|]. unfold nrm2 in *. lra.
Qed.
Lemma strong_nonexpansive n dom f t P :
  (forall x, length x = n -> strong n dom f t x (P x)) -> nonexpansive n P.
Proof.
  intros H. apply firm_nonexpansive; [intros; apply H; auto|].
  intros x y Hx Hy. destruct (H x Hx) as [L1 [D1 S1]]. destruct (H y Hy) as [L2 [D2 S2]].
  specialize (S1 _ L2 D2). specialize (S2 _ L1 D1). unfold prox_obj, nrm2 in *.
  rewrite !(rdot_sum (n := n)) in * by vl.
  assert (E : rsum n (fun i => (rsub (P x) (P y))@i * (rsub x y)@i) - rsum n (fun i => (rsub (P x) (P y))@i * (rsub (P x) (P y))@i)
    = / 2 * (rsum n (fun i => (rsub (P y) x)@i * (rsub (P y) x)@i) - rsum n (fun i => (rsub (P x) x)@i * (rsub (P x) x)@i)
       - rsum n (fun i => (rsub (P y) (P x))@i * (rsub (P y) (P x))@i))
      + / 2 * (rsum n (fun i => (rsub (P x) y)@i * (rsub (P x) y)@i) - rsum n (fun i => (rsub (P y) y)@i * (rsub (P y) y)@i)
       - rsum n (fun i => (rsub (P x) (P y))@i * (rsub (P x) (P y))@i))).
  { rewrite <- !rsum_sub. rewrite <- !rsum_mul_l. rewrite <- rsum_add. apply rsum_ext. intros i Hi.
    rewrite !rsub_nth by vl. field. }
  lra.
Qed.

(** *** shrinkage *)
Lemma strong_shrink n k x : 0 <= k -> length x = n -> strong n everywhere nrm1 k x (shrink x k).
Proof.
  intros Hk Hx. split; [vl|]. split; [exact I|]. intros z Hz _. unfold prox_obj.
  unfold nrm2, rsub, shrink. 
  assert (Hl : length z = length x) by congruence. clear Hz Hx n.
  revert z Hl. induction x as [|a x IH]; intros [|b z] Hl; try discriminate Hl; simpl; [lra|].
  specialize (IH z ltac:(simpl in Hl; lia)).
  set (s := Rmax 0 (a - k) + Rmin 0 (a + k)).
  assert (E : k * Rabs s + / 2 * ((s - a) * (s - a)) + / 2 * ((b - s) * (b - s)) <= k * Rabs b + / 2 * ((b - a) * (b - a))).
  { unfold s, Rmax, Rmin. repeat destruct (Rle_dec _ _); unfold Rabs; repeat destruct (Rcase_abs _); nra. }
  lra.
Qed.
Lemma nonneg_cons a x : nonneg (a :: x) <-> 0 <= a /\ nonneg x.
Proof.
  split.
  - intros H. split; [apply (H 0%nat); simpl; lia|]. intros i Hi. apply (H (S i)); simpl; lia.
  - intros [H1 H2] [|i] Hi; simpl; auto. apply H2. simpl in Hi; lia.
Qed.
Lemma strong_pos n k x : 0 <= k -> length x = n -> strong n nonneg nrm1 k x (map (fun a => Rmax 0 (a - k)) x).
Proof.
  intros Hk Hx. split; [vl|]. split.
  { clear. induction x as [|a x IH]; [intros i Hi; simpl in Hi; lia|]. simpl. apply nonneg_cons. split; [apply Rmax_l|auto]. }
  intros z Hz Dz. unfold prox_obj, nrm2, rsub.
  assert (Hl : length z = length x) by congruence. clear Hz Hx n.
  revert z Hl Dz. induction x as [|a x IH]; intros [|b z] Hl Dz; try discriminate Hl; simpl; [lra|].
  apply nonneg_cons in Dz. destruct Dz as [Db Dz].
  specialize (IH z ltac:(simpl in Hl; lia) Dz).
  set (s := Rmax 0 (a - k)).
  assert (E : k * Rabs s + / 2 * ((s - a) * (s - a)) + / 2 * ((b - s) * (b - s)) <= k * Rabs b + / 2 * ((b - a) * (b - a))).
  { unfold s, Rmax. repeat destruct (Rle_dec _ _); unfold Rabs; repeat destruct (Rcase_abs _); nra. }
  lra.
Qed.

(** *** the l1 operator as written *)
Lemma nrm1_scale q x : nrm1 (rscale q x) = Rabs q * nrm1 x.
Proof. unfold rscale. induction x as [|a x IH]; simpl; [ring|]. rewrite IH, Rabs_mult. ring. Qed.
Lemma l1_entry tq a : 0 < tq -> xmul a (xrsub 1 (xmin (xdiv tq (Rabs a)) 1)) = Fin (Rmax 0 (a - tq) + Rmin 0 (a + tq)).
Proof.
  intros Ht. unfold xdiv, Reqb. destruct (Req_EM_T (Rabs a) 0) as [E|E].
  - assert (a = 0) by (revert E; unfold Rabs; destruct (Rcase_abs a); lra). subst a.
    destruct (Req_EM_T tq 0); [lra|]. unfold Rltb. destruct (Rlt_dec 0 tq); [|lra]. simpl.
    f_equal. unfold Rmax, Rmin. repeat destruct (Rle_dec _ _); lra.
  - simpl. f_equal. pose proof (Rabs_pos a).
    assert (Hq : tq / Rabs a * Rabs a = tq) by (field; auto).
    destruct (Rle_lt_dec (Rabs a) tq) as [H1|H1].
    + rewrite Rmin_right by (apply Rmult_le_reg_r with (Rabs a); lra).
      unfold Rabs in *; destruct (Rcase_abs a); unfold Rmax, Rmin; repeat destruct (Rle_dec _ _); lra.
    + rewrite Rmin_left by (apply Rmult_le_reg_r with (Rabs a); lra).
      unfold Rabs in *; destruct (Rcase_abs a).
      * rewrite Rmax_left, Rmin_right by lra. field. lra.
      * rewrite Rmax_right, Rmin_left by lra. field. lra.
Qed.
Lemma prox_l1_eq q x t : 0 < t * q -> prox_op (prox_l1 q) x t = map Fin (shrink x (t * q)).
Proof. intros H. simpl. unfold shrink. rewrite map_map. apply map_ext. intros a. now apply l1_entry. Qed.
Lemma finite_map x : finite (map Fin x) = Some x.
Proof. induction x as [|a x IH]; simpl; auto. now rewrite IH. Qed.

(** *** l2 norm *)
Lemma rscale_nth_eq c x : rscale c x = map (fun a => a * c) x.
Proof. unfold rscale. apply map_ext. intros; ring. Qed.
Definition l2_shrink (k : R) (x : vec) : vec := if Rle_dec (nrm x) k then rzero (length x) else rscale (1 - k / nrm x) x.
Lemma prox_l2_eq q x t : 0 < t * q -> prox_op (prox_l2 q) x t = map Fin (l2_shrink (t * q) x).
Proof.
  intros Ht. simpl. unfold xdiv, Reqb. destruct (Req_EM_T (t * q) 0); [lra|]. simpl.
  unfold l2_shrink. set (tq := t * q) in *. set (v := nrm x).
  assert (Hv : v / tq * tq = v) by (field; lra).
  destruct (Rle_dec v tq) as [H|H].
  - rewrite Rmax_right by (apply Rmult_le_reg_r with tq; lra).
    unfold xdiv, Reqb. destruct (Req_EM_T 1 0); [lra|]. simpl.
    unfold rzero. clear. induction x as [|a x IH]; simpl; auto. rewrite IH. f_equal. f_equal. field.
  - rewrite Rmax_left by (apply Rmult_le_reg_r with tq; lra).
    unfold xdiv, Reqb. destruct (Req_EM_T (v / tq) 0) as [E|E]; [rewrite E in Hv; lra|]. simpl.
    rewrite rscale_nth_eq, map_map. apply map_ext. intros a. simpl. f_equal. f_equal. field. lra.
Qed.
Lemma strong_l2 n k x : 0 < k -> length x = n -> strong n everywhere nrm k x (l2_shrink k x).
Proof.
  intros Hk Hx. unfold l2_shrink.
  assert (Hex : forall p z, length p = n -> length z = n -> k * nrm p <= k * nrm z + rdot (rsub z p) (rsub p x) ->
     prox_obj nrm k x p + / 2 * nrm2 (rsub z p) <= prox_obj nrm k x z).
  { intros p z Hp Hz H. unfold prox_obj. rewrite (@nrm2_sub_expand n z p x) by auto.
    rewrite (nrm2_sub_sym p x) by congruence.
    assert (E : rdot (rsub x p) (rsub x p) = rdot (rsub x p) (rsub x p)) by auto.
    assert (E2 : rdot (rsub z p) (rsub x p) = - rdot (rsub z p) (rsub p x)).
    { rewrite <- rdot_opp_r. f_equal. veq. }
    rewrite E2. lra. }
  destruct (Rle_dec (nrm x) k) as [H|H].
  - split; [vl|]. split; [exact I|]. intros z Hz _. apply Hex; [vl|auto|].
    rewrite nrm_rzero. assert (E : rdot (rsub z (rzero (length x))) (rsub (rzero (length x)) x) = - rdot z x).
    { rewrite <- rdot_opp_r. f_equal; veq. }
    rewrite E. pose proof (cauchy_le z x). pose proof (nrm_pos z).
    assert (nrm z * nrm x <= nrm z * k) by (apply Rmult_le_compat_l; auto). lra.
  - split; [vl|]. split; [exact I|]. intros z Hz _. apply Hex; [vl|auto|].
    set (v := nrm x) in *. assert (Hv : k < v) by lra.
    assert (Hs : 0 <= 1 - k / v).
    { apply Rmult_le_reg_r with v; [lra|]. unfold Rdiv. rewrite Rmult_minus_distr_r, Rmult_assoc, Rinv_l; lra. }
    rewrite nrm_scale, Rabs_right by lra. fold v.
    rewrite rdot_sub_l, !rdot_sub_r by vl. rewrite !rdot_scale_l, !rdot_scale_r, <- (nrm_sq x). fold v.
    pose proof (cauchy_le z x) as Hc. fold v in Hc.
    assert (0 <= k / v) by (apply Rmult_le_pos; [lra|apply Rlt_le, Rinv_0_lt_compat; lra]).
    assert (H3 : k / v * rdot z x <= k / v * (nrm z * v)) by (apply Rmult_le_compat_l; auto).
    replace (k / v * (nrm z * v)) with (k * nrm z) in H3 by (field; lra).
    replace ((1 - k / v) * rdot z x - rdot z x - ((1 - k / v) * ((1 - k / v) * (v * v)) - (1 - k / v) * (v * v)))
      with (- (k / v * rdot z x) + k * ((1 - k / v) * v)) by (field; lra). lra.
Qed.

Lemma small_le a b : (forall s, 0 < s <= 1 -> a * (1 - s) <= b) -> a <= b.
Proof.
  intros H. destruct (Rle_lt_dec a b) as [|Hlt]; auto. exfalso.
  destruct (Rle_lt_dec a 0) as [Ha|Ha].
  - specialize (H 1 ltac:(lra)). lra.
  - set (s := Rmin 1 ((a - b) / (2 * a))).
    assert (H1 : 0 < (a - b) / (2 * a)) by (apply Rmult_lt_0_compat; [lra|apply Rinv_0_lt_compat; lra]).
    assert (Hs : 0 < s <= 1) by (unfold s; split; [apply Rmin_pos; lra|apply Rmin_l]).
    specialize (H s Hs). assert (Hs2 : s <= (a - b) / (2 * a)) by apply Rmin_r.
    assert (a * s <= a * ((a - b) / (2 * a))) by (apply Rmult_le_compat_l; lra).
    replace (a * ((a - b) / (2 * a))) with ((a - b) / 2) in H0 by (field; lra). lra.
Qed.
Lemma convex_strong n f t x p : 0 <= t -> convex n f -> length x = n -> length p = n ->
  (forall z, length z = n -> prox_obj f t x p <= prox_obj f t x z) -> strong n everywhere f t x p.
Proof.
  intros Ht Hf Hx Hp Hmin. split; [auto|]. split; [exact I|]. intros z Hz _.
  assert (H : / 2 * nrm2 (rsub z p) <= prox_obj f t x z - prox_obj f t x p); [|lra].
  apply small_le. intros s Hs.
  specialize (Hmin (radd (rscale (1 - s) p) (rscale s z)) ltac:(vl)).
  specialize (Hf p z s Hp Hz ltac:(lra)). unfold prox_obj in *.
  assert (E : nrm2 (rsub (radd (rscale (1 - s) p) (rscale s z)) x)
     = (1 - s) * nrm2 (rsub p x) + s * nrm2 (rsub z x) - s * (1 - s) * nrm2 (rsub z p)).
  { unfold nrm2. rewrite !(rdot_sum (n := n)) by vl. rewrite <- !rsum_mul_l, <- rsum_add, <- rsum_sub.
    apply rsum_ext. intros i Hi. rewrite !rsub_nth by vl. rewrite radd_nth by vl. rewrite !rscale_nth. ring. }
  rewrite E in Hmin. apply Rmult_le_reg_l with s; [lra|].
  assert (t * f (radd (rscale (1 - s) p) (rscale s z)) <= t * ((1 - s) * f p + s * f z)) by (apply Rmult_le_compat_l; auto).
  lra.
Qed.

(** a quadratic bound on the remainder gives the directional derivative *)
Lemma quad_bound_deriv (phi : R -> R) g c : 0 <= c ->
  (forall s, Rabs (phi s - phi 0 - s * g) <= c * (s * s)) -> derivable_pt_lim phi 0 g.
Proof.
  intros Hc H eps Heps.
  assert (Hd : 0 < eps / (c + 1)) by (apply Rmult_lt_0_compat; [auto|apply Rinv_0_lt_compat; lra]).
  exists (mkposreal _ Hd). intros s Hs0 Hs. simpl in Hs. rewrite Rplus_0_l.
  specialize (H s).
  replace ((phi s - phi 0) / s - g) with ((phi s - phi 0 - s * g) / s) by (field; auto).
  unfold Rdiv. rewrite Rabs_mult, Rabs_inv.
  assert (Hp : 0 < Rabs s) by (apply Rabs_pos_lt; auto).
  assert (Es : s * s = Rabs s * Rabs s) by (rewrite <- Rabs_mult, Rabs_right; auto; nra).
  rewrite Es in H.
  apply Rle_lt_trans with (c * Rabs s).
  - apply Rmult_le_reg_r with (Rabs s); [auto|]. rewrite Rmult_assoc, Rinv_l by lra. lra.
  - assert (Rabs s * (c + 1) < eps).
    { apply Rmult_lt_reg_r with (/ (c + 1)); [apply Rinv_0_lt_compat; lra|]. rewrite Rmult_assoc, Rinv_r by lra. unfold Rdiv in Hs. lra. }
    lra.
Qed.

Section Moreau.
  Variables (n : nat) (f : vec -> R) (prox : vec -> R -> vec) (mu : R).
  Hypothesis Hmu : 0 < mu.
  Hypothesis Hconv : convex n f.
  Hypothesis HL : forall x, length x = n -> length (prox x mu) = n.
  Hypothesis Hprox : forall x, length x = n ->
    forall z, length z = n -> prox_obj f mu x (prox x mu) <= prox_obj f mu x z.
  (** envelope value at the proximal point *)
  Definition env (x : vec) : R := f (prox x mu) + / (2 * mu) * nrm2 (rsub x (prox x mu)).
  Lemma env_le x z : length x = n -> length z = n -> env x <= f z + / (2 * mu) * nrm2 (rsub x z).
  Proof.
    intros Hx Hz. specialize (Hprox x Hx z Hz). unfold prox_obj in Hprox. unfold env.
    rewrite (nrm2_sub_sym (prox x mu) x), (nrm2_sub_sym z x) in Hprox by (rewrite ?HL; congruence).
    apply Rmult_le_reg_l with mu; [auto|]. rewrite !Rmult_plus_distr_l, <- !Rmult_assoc.
    replace (mu * / (2 * mu)) with (/ 2) by (field; lra). auto.
  Qed.
  Lemma env_quad x d : length x = n -> length d = n ->
    Rabs (env (radd x d) - env x - rdot (rscale (1 / mu) (rsub x (prox x mu))) d) <= / (2 * mu) * nrm2 d.
  Proof.
    intros Hx Hd.
    assert (Hxd : length (radd x d) = n) by vl.
    pose proof (HL x Hx) as L1. pose proof (HL _ Hxd) as L2.
    set (p := prox x mu) in *. set (p' := prox (radd x d) mu) in *.
    rewrite rdot_scale_l.
    assert (Hi : 0 < / mu) by (apply Rinv_0_lt_compat; auto).
    assert (E2 : / (2 * mu) = / 2 * / mu) by (field; lra).
    assert (Hup : env (radd x d) <= f p + / (2 * mu) * nrm2 (rsub (radd x d) p)) by (apply env_le; auto).
    assert (Elow : env (radd x d) = f p' + / (2 * mu) * nrm2 (rsub (radd x d) p')) by reflexivity.
    assert (Ex : env x = f p + / (2 * mu) * nrm2 (rsub x p)) by reflexivity.
    destruct (@convex_strong n f mu x p ltac:(lra) Hconv Hx L1 (Hprox x Hx)) as [_ [_ Hst]].
    specialize (Hst p' L2 I). unfold prox_obj in Hst.
    assert (Hn1 : nrm2 (rsub (radd x d) p) = nrm2 (rsub x p) + 2 * rdot (rsub x p) d + nrm2 d).
    { unfold nrm2. rewrite !(rdot_sum (n := n)) by vl. rewrite <- rsum_mul_l, <- !rsum_add. apply rsum_ext. intros i Hi'.
      rewrite !rsub_nth, radd_nth by vl. ring. }
    assert (Hn2 : nrm2 (rsub (radd x d) p') = nrm2 (rsub p' x) - 2 * rdot (rsub p' x) d + nrm2 d).
    { unfold nrm2. rewrite !(rdot_sum (n := n)) by vl. rewrite <- rsum_mul_l, <- rsum_sub, <- !rsum_add. apply rsum_ext. intros i Hi'.
      rewrite !rsub_nth, radd_nth by vl. ring. }
    assert (Hn3 : nrm2 (rsub x p) = nrm2 (rsub p x)) by (apply nrm2_sub_sym; congruence).
    assert (Hst' : f p + / (2 * mu) * nrm2 (rsub p x) + / (2 * mu) * nrm2 (rsub p' p) <= f p' + / (2 * mu) * nrm2 (rsub p' x)).
    { apply Rmult_le_reg_l with mu; [auto|]. rewrite E2.
      replace (mu * (f p + / 2 * / mu * nrm2 (rsub p x) + / 2 * / mu * nrm2 (rsub p' p))) with
        (mu * f p + / 2 * nrm2 (rsub p x) + / 2 * nrm2 (rsub p' p)) by (field; lra).
      replace (mu * (f p' + / 2 * / mu * nrm2 (rsub p' x))) with (mu * f p' + / 2 * nrm2 (rsub p' x)) by (field; lra). lra. }
    (* 2<p'-p,d> <= |p'-p|^2 + |d|^2 *)
    assert (Hy : 0 <= nrm2 (rsub (rsub p' p) d)) by apply nrm2_pos.
    assert (Hn4 : nrm2 (rsub (rsub p' p) d) = nrm2 (rsub p' p) - 2 * (rdot (rsub p' x) d + rdot (rsub x p) d) + nrm2 d).
    { unfold nrm2. rewrite !(rdot_sum (n := n)) by vl. rewrite <- rsum_add, <- rsum_mul_l, <- rsum_sub, <- !rsum_add. apply rsum_ext. intros i Hi'.
      rewrite !rsub_nth by vl. ring. }
    rewrite Hn4 in Hy. rewrite E2 in *.
    assert (Hy2 : 0 <= / 2 * / mu * (nrm2 (rsub p' p) - 2 * (rdot (rsub p' x) d + rdot (rsub x p) d) + nrm2 d)) by (apply Rmult_le_pos; [lra|auto]).
    apply Rabs_le. rewrite Hn1 in Hup. rewrite Hn2 in Elow. unfold Rdiv. rewrite Rmult_1_l. split; nra.
  Qed.
  Lemma env_gradient x : length x = n -> is_gradient n env x (rscale (1 / mu) (rsub x (prox x mu))).
  Proof.
    intros Hx. pose proof (HL x Hx) as L1. split; [vl|]. intros d Hd.
    apply quad_bound_deriv with (c := / (2 * mu) * nrm2 d).
    { apply Rmult_le_pos; [|apply nrm2_pos]. apply Rlt_le, Rinv_0_lt_compat. lra. }
    intros s. assert (E0 : radd x (rscale 0 d) = x) by veq. rewrite E0.
    pose proof (@env_quad x (rscale s d) Hx ltac:(vl)) as H. rewrite rdot_scale_r in H.
    assert (E : nrm2 (rscale s d) = s * s * nrm2 d) by (unfold nrm2; rewrite rdot_scale_l, rdot_scale_r; ring).
    rewrite E in H. lra.
  Qed.
End Moreau.
