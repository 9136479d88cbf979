(** Proximal operator of the l2 norm and thresholding on complex vectors. *)
From Coq Require Import List Arith Bool Lia Reals Lra Psatz.
From Verif Require Import Scalar Vec RVec RMat Loop LoopLemmas XReal LopModel LopSpec LopProofs LopProofs2 OptSpec OptModel OptProofs OptProofs2 OptProofs3 OptProofs4 OptProofs5 OptLemmas CxSpec CxModel CxProofs CxBpSpec CxFomModel CxFomSpec CxFomProofs CxProjModel CxProjSpec CxProjProofs.
Import ListNotations.
Set Implicit Arguments.
Unset Strict Implicit.
Local Open Scope R_scope.

(** A.T of a matrix with real entries is the adjoint *)
Lemma real_adjoint m n A : wf_mat m n A -> creal_entries A -> @is_adjoint Cs m n (matvec A) (fun w => vecmat n w A).
Proof.
  intros W H. assert (K : forall r, In r A -> @is_real_vec Cs r).
  { intros r Hr [a b] Ha. specialize (H r (a, b) Hr Ha). cbn in *. subst b. unfold Cconj. cbn. apply (f_equal2 pair); ring. }
  exact (proj2 (proj2 (@real_matrix_adjoint Cs m n A W K))).
Qed.

(** *** prox_l2 *)
Lemma call_scale s x : call_some (map (cfactor (Fin s)) x) = Some (vscale (ofR s : Cs) x).
Proof. induction x as [|a x IH]; [reflexivity|]. cbn [map call_some cfactor]. rewrite IH. reflexivity. Qed.
Lemma capable_cl2 n q : 0 < q -> ccapable n (fun _ => True) (fun z => q * cnorm z) (cprox_l2 q).
Proof.
  intros Hq. split.
  - intros x Lx. split; [reflexivity|]. intros N. exfalso. apply N. exact I.
  - intros v t Lv Ht. assert (Htq : 0 < t * q) by nra.
    destruct (@prox_l2_full (2 * n) q t (flat v) Hq Ht (flat2 Lv)) as [z [E [M _]]].
    pose proof (prox_l2_eq (q := q) (flat v) Htq) as E2. rewrite E2 in E. assert (Ez : z = l2_shrink (t * q) (flat v)).
    { apply (f_equal finite) in E. rewrite !finite_map in E. congruence. } clear E E2. subst z.
    set (s := xrsub 1 (xinv (xmax (xdiv (cnorm v) (t * q)) 1))).
    assert (S : exists c, s = Fin c /\ flat (vscale (ofR c : Cs) v) = l2_shrink (t * q) (flat v)).
    { unfold s, xdiv. unfold Reqb at 1. destruct (Req_EM_T (t * q) 0); [lra|]. cbn [xmax xinv]. unfold xdiv, Reqb.
      pose proof (Rmax_r (cnorm v / (t * q)) 1). destruct (Req_EM_T (Rmax (cnorm v / (t * q)) 1) 0); [lra|]. cbn [xrsub]. eexists. split; [reflexivity|].
      rewrite flat_scale. unfold l2_shrink. rewrite flat_nrm. destruct (Rle_dec (cnorm v) (t * q)) as [C|C].
      - rewrite Rmax_right by (apply Rmult_le_reg_r with (t * q); [lra|]; unfold Rdiv; rewrite Rmult_assoc, Rinv_l; lra).
        apply vec_eq; [vl|]. intros i Hi. rewrite rscale_nth, rzero_nth. field.
      - rewrite Rmax_left by (apply Rmult_le_reg_r with (t * q); [lra|]; unfold Rdiv; rewrite Rmult_assoc, Rinv_l; lra).
        f_equal. field. split; lra. }
    destruct S as [c [Ec Ef]]. set (p := vscale (ofR c : Cs) v) in *. exists p.
    assert (Lp : length p = n) by (unfold p; now rewrite vscale_length).
    split; [|split; [exact Lp|split; [exact I|]]].
    { change (match call_some (map (cfactor s) v) with Some z => Some (z, Fin (q * cnorm z)) | None => None end = Some (p, Fin (q * cnorm p))).
      rewrite Ec, call_scale. reflexivity. }
    intros w Lw _. destruct M as [_ [_ M]]. destruct (M _ (flat2 Lw) Logic.I) as [M1 M2]. rewrite <- Ef in M1, M2. unfold prox_obj in M1, M2.
    rewrite !flat_nrm, <- !flat_sub, !flat_nrm2 in M1, M2. split; [exact M1|]. intros K. apply flat_inj. auto.
Qed.

(** *** thresholding *)
Lemma cabs_zero z : cabs z = 0 <-> Cnsq z = 0.
Proof.
  pose proof (cabs_sq z) as S. unfold Cnsq. split; intros H; [rewrite <- S, H; ring|].
  rewrite <- S in H. apply Rmult_integral in H as [H|H]; exact H.
Qed.
Lemma cabs_scale c z : 0 <= c -> cabs (Cmul (ofR c : Cs) z) = c * cabs z.
Proof.
  intros Hc. unfold cabs, Cmul. cbn. replace ((c * fst z - 0 * snd z) * (c * fst z - 0 * snd z) + (c * snd z + 0 * fst z) * (c * snd z + 0 * fst z)) with (Rsqr c * (fst z * fst z + snd z * snd z)) by (unfold Rsqr; ring).
  rewrite sqrt_mult, sqrt_Rsqr; [reflexivity|exact Hc|apply Rle_0_sqr|nra].
Qed.
(** |w - z|^2 >= (|w| - |z|)^2 *)
Lemma cabs_gap z w : (cabs w - cabs z) * (cabs w - cabs z) <= Cnsq (Csub w z).
Proof.
  pose proof (cabs_sq z) as S1. pose proof (cabs_sq w) as S2. pose proof (cabs_cauchy z w) as K. unfold Cnsq, Csub. cbn.
  replace ((cabs w - cabs z) * (cabs w - cabs z)) with (cabs w * cabs w + cabs z * cabs z - 2 * (cabs z * cabs w)) by ring. rewrite S1, S2. nra.
Qed.
Lemma chard_entry x tau i : nth i (chard_threshold x tau) (0, 0) = if Rlt_dec (sqrt (2 * tau)) (cabs (nth i x (0, 0))) then nth i x (0, 0) else (0, 0).
Proof.
  unfold chard_threshold. cbv zeta. set (g := sqrt (2 * tau)). revert i. induction x as [|a x IH]; intros [|i].
  - cbn. destruct (Rlt_dec _ _); reflexivity.
  - cbn. destruct (Rlt_dec _ _); reflexivity.
  - cbn [map nth]. unfold Rltb. destruct (Rlt_dec g (cabs a)); destruct a as [u v]; unfold Cmul; cbn; apply (f_equal2 pair); ring.
  - cbn [map nth]. apply IH.
Qed.
Lemma chard_min tau : 0 <= tau -> forall x z, length z = length x ->
  tau * cnonzeros (chard_threshold x tau) + / 2 * cnsq (vsub (chard_threshold x tau) x) <= tau * cnonzeros z + / 2 * cnsq (vsub z x).
Proof.
  intros Ht x. unfold chard_threshold. cbv zeta.
  assert (Hg : sqrt (2 * tau) * sqrt (2 * tau) = 2 * tau) by (apply sqrt_sqrt; lra). pose proof (sqrt_pos (2 * tau)) as Hgp. set (g := sqrt (2 * tau)) in *.
  induction x as [|a x IH]; intros [|b z] Hl; try discriminate Hl; [cbn; lra|]. specialize (IH z (eq_add_S _ _ Hl)).
  set (h := (fun z : Cs => Cmul (ofR (if Rltb g (cabs z) then 1 else 0) : Cs) z) : Cs -> Cs) in *.
  change (tau * ((if Req_EM_T (Cnsq (h a)) 0 then 0 else 1) + cnonzeros (map h x)) + / 2 * (Cnsq (Csub (h a) a) + cnsq (vsub (map h x : cvec) x))
    <= tau * ((if Req_EM_T (Cnsq b) 0 then 0 else 1) + cnonzeros z) + / 2 * (Cnsq (Csub b a) + cnsq (vsub z x))).
  assert (E : tau * (if Req_EM_T (Cnsq (h a)) 0 then 0 else 1) + / 2 * Cnsq (Csub (h a) a) <= tau * (if Req_EM_T (Cnsq b) 0 then 0 else 1) + / 2 * Cnsq (Csub b a)).
  { pose proof (cabs_sq a) as Sa. pose proof (cabs_pos0 a) as Pa.
    assert (P : 0 <= Cnsq (Csub b a)) by (unfold Cnsq; nra).
    assert (B : Cnsq b = 0 -> Cnsq (Csub b a) = cabs a * cabs a).
    { intros Hb. unfold Cnsq in Hb. assert (fst b = 0) by nra. assert (snd b = 0) by nra. rewrite Sa. unfold Cnsq, Csub. cbn. rewrite H, H0. ring. }
    unfold h. unfold Rltb. destruct (Rlt_dec g (cabs a)) as [H|H].
    - assert (Ea : Cmul (ofR 1 : Cs) a = a) by (destruct a as [u v]; unfold Cmul; cbn; apply (f_equal2 pair); ring). rewrite Ea.
      assert (Z : Cnsq (Csub a a) = 0) by (unfold Cnsq, Csub; cbn; ring). rewrite Z.
      assert (g * g <= cabs a * cabs a) by nra.
      destruct (Req_EM_T (Cnsq b) 0) as [Hb|Hb]; [rewrite (B Hb)|]; destruct (Req_EM_T (Cnsq a) 0) as [Ha|Ha]; lra.
    - assert (Ea : Cmul (ofR 0 : Cs) a = (0, 0)) by (destruct a as [u v]; unfold Cmul; cbn; apply (f_equal2 pair); ring). rewrite Ea.
      assert (Z : Cnsq (Csub (0, 0) a) = cabs a * cabs a) by (rewrite Sa; unfold Cnsq, Csub; cbn; ring). rewrite Z.
      assert (cabs a * cabs a <= g * g) by nra.
      destruct (Req_EM_T (Cnsq (0, 0)) 0) as [K|K]; [|exfalso; apply K; unfold Cnsq; cbn; ring].
      destruct (Req_EM_T (Cnsq b) 0) as [Hb|Hb]; [rewrite (B Hb)|]; lra. }
  change (tau * cnonzeros (map h x) + / 2 * cnsq (vsub (map h x : cvec) x) <= tau * cnonzeros z + / 2 * cnsq (vsub z x)) in IH.
  pose proof (Rplus_le_compat _ _ _ _ E IH) as K. eapply Rle_trans; [right|eapply Rle_trans; [exact K|right]]; ring.
Qed.
Lemma chalf_scalar tau a b : 0 < tau ->
  let p := if Rleb (half_gamma tau) (cabs a) then
     let phi := 2 / 3 * acos (tau / 8 * Rpower (cabs a / 3) (- (3 / 2))) in
     Cmul (Cmul (ofR (2 / 3) : Cs) a) (ofR (1 + cos (2 * PI / 3 - phi)) : Cs) else (ofR 0 : Cs) in
  tau * sqrt (cabs p) + Cnsq (Csub p a) <= tau * sqrt (cabs b) + Cnsq (Csub b a).
Proof.
  intros Ht. cbv zeta. pose proof (@half_scalar tau (cabs a) (cabs b) Ht) as H. cbv zeta in H.
  pose proof (cabs_pos0 a) as Pa. pose proof (cabs_pos0 b) as Pb. rewrite (Rabs_right (cabs a)), (Rabs_right (cabs b)) in H by lra.
  pose proof (cabs_gap a b) as G. apply Rle_trans with (tau * sqrt (cabs b) + (cabs b - cabs a) * (cabs b - cabs a)); [|lra].
  refine (Rle_trans _ _ _ _ H). pose proof (cabs_sq a) as Sa. destruct (Rleb (half_gamma tau) (cabs a)).
  - set (c := 1 + cos _). assert (Hc : 0 <= c) by (unfold c; match goal with |- context [cos ?u] => pose proof (COS_bound u) end; lra).
    assert (E : Cmul (Cmul (ofR (2 / 3) : Cs) a) (ofR c : Cs) = Cmul (ofR (2 / 3 * c) : Cs) a) by (destruct a as [u v]; unfold Cmul; cbn; apply (f_equal2 pair); ring).
    rewrite E, cabs_scale by nra. rewrite (Rabs_right (2 / 3 * cabs a * c)) by (apply Rle_ge; apply Rmult_le_pos; nra).
    replace (2 / 3 * c * cabs a) with (2 / 3 * cabs a * c) by ring. apply Rplus_le_compat_l. right.
    replace ((2 / 3 * cabs a * c - cabs a) * (2 / 3 * cabs a * c - cabs a)) with ((2 / 3 * c - 1) * (2 / 3 * c - 1) * (cabs a * cabs a)) by ring. rewrite Sa.
    destruct a as [u v]. unfold Cnsq, Csub, Cmul. cbn. ring.
  - rewrite Rabs_R0. assert (E : cabs (ofR 0 : Cs) = 0) by (apply cabs_zero; unfold Cnsq; cbn; ring). rewrite E. apply Rplus_le_compat_l. right.
    replace ((0 - cabs a) * (0 - cabs a)) with (cabs a * cabs a) by ring. rewrite Sa. unfold Cnsq, Csub. cbn. ring.
Qed.
Definition chalf1 (tau : R) (z : Cs) : Cs :=
  if Rleb (half_gamma tau) (cabs z) then
    let phi := 2 / 3 * acos (tau / 8 * Rpower (cabs z / 3) (- (3 / 2))) in
    Cmul (Cmul (ofR (2 / 3) : Cs) z) (ofR (1 + cos (2 * PI / 3 - phi)) : Cs)
  else ofR 0.
Lemma chalf_map x tau : chalf_threshold x tau = map (chalf1 tau) x.
Proof. reflexivity. Qed.
Lemma chalf_min tau : 0 < tau -> forall x z, length z = length x ->
  tau * croots (chalf_threshold x tau) + cnsq (vsub (chalf_threshold x tau) x) <= tau * croots z + cnsq (vsub z x).
Proof.
  intros Ht x. rewrite chalf_map. induction x as [|a x IH]; intros [|b z] Hl; try discriminate Hl; [cbn; lra|]. specialize (IH z (eq_add_S _ _ Hl)).
  pose proof (@chalf_scalar tau a b Ht) as S. cbv zeta in S. set (f := chalf1 tau) in *.
  change (tau * sqrt (cabs (f a)) + Cnsq (Csub (f a) a) <= tau * sqrt (cabs b) + Cnsq (Csub b a)) in S.
  change (tau * (sqrt (cabs (f a)) + croots (map f x)) + (Cnsq (Csub (f a) a) + cnsq (vsub (map f x : cvec) x)) <= tau * (sqrt (cabs b) + croots z) + (Cnsq (Csub b a) + cnsq (vsub z x))).
  pose proof (Rplus_le_compat _ _ _ _ S IH) as K. eapply Rle_trans; [right|eapply Rle_trans; [exact K|right]]; ring.
Qed.
Lemma chalf_support tau x i : 0 < tau -> (i < length x)%nat -> (nth i (chalf_threshold x tau) (0, 0) <> (0, 0) <-> half_gamma tau <= cabs (nth i x (0, 0))).
Proof.
  intros Ht Hi. rewrite chalf_map.
  assert (E : nth i (map (chalf1 tau) x) (0, 0) = chalf1 tau (nth i x (0, 0))) by (rewrite (nth_indep _ (0, 0) (chalf1 tau (0, 0))) by (now rewrite map_length); apply map_nth).
  rewrite E. set (z := nth i x (0, 0)). unfold chalf1. cbv zeta. destruct (Rleb_spec (half_gamma tau) (cabs z)) as [H|H].
  - split; [intros _; exact H|]. intros _.
    pose proof (gamma_pos tau) as G.
    destruct (@trig_root tau (cabs z) Ht H) as [w [W1 [W2 [W3 W4]]]].
    set (c := 1 + cos _) in *. intros K.
    assert (C0 : cabs (Cmul (Cmul (ofR (2 / 3) : Cs) z) (ofR c : Cs)) = 0) by (rewrite K; apply cabs_zero; unfold Cnsq; cbn; ring).
    assert (Hc : 0 <= c) by (unfold c; match goal with |- context [cos ?u] => pose proof (COS_bound u) end; lra).
    assert (E2 : Cmul (Cmul (ofR (2 / 3) : Cs) z) (ofR c : Cs) = Cmul (ofR (2 / 3 * c) : Cs) z) by (destruct z as [u v]; unfold Cmul; cbn; apply (f_equal2 pair); ring).
    rewrite E2, cabs_scale in C0 by nra. assert (w * w = 0) by (rewrite W2; lra). nra.
  - split; [intros K; exfalso; apply K; reflexivity|intros K; contradiction].
Qed.

(** the lexicographic minimum and maximum with real numbers *)
Lemma lex_clip (a b p q : R) : a <= b -> let w := (clexmin (clexmax ((p, q) : Cs) (ofR a : Cs)) (ofR b : Cs) : Cx) in
  fst w = Rmin (Rmax p a) b /\ (a < p < b -> w = (p, q)) /\ (p < a -> w = (a, 0)) /\ (b < p -> w = (b, 0)).
Proof.
  intros H w. unfold w, clexmin, clexmax, clexgt. cbn. unfold Rmin, Rmax.
  destruct (Rltb_spec p a); cbn.
  - destruct (Rltb_spec b a); [lra|]. cbn. destruct (Reqb_spec a b); cbn; [destruct (Rltb_spec 0 0); [lra|]|]; cbn; destruct (Rle_dec p a); try lra; destruct (Rle_dec a b); try lra; repeat split; intros; try lra; reflexivity.
  - assert (E : forall w' : Cx, (w' = (p, q) \/ p = a /\ w' = (a, 0)) -> 
      let w := (if clexgt w' (b, 0) then (b, 0) else w') in
      fst w = (if Rle_dec (if Rle_dec p a then a else p) b then if Rle_dec p a then a else p else b) /\ (a < p < b -> w = (p, q)) /\ (p < a -> w = (a, 0)) /\ (b < p -> w = (b, 0))).
    { intros w' D. unfold clexgt. cbn. destruct D as [->|[-> ->]]; cbn.
      - destruct (Rltb_spec b p); cbn; [|destruct (Reqb_spec p b); cbn; [destruct (Rltb_spec 0 q); cbn|]]; destruct (Rle_dec p a); destruct (Rle_dec _ b); repeat split; intros; try lra; try reflexivity.
      - destruct (Rltb_spec b a); cbn; [lra|destruct (Reqb_spec a b); cbn; [destruct (Rltb_spec 0 0); cbn|]]; destruct (Rle_dec a a); destruct (Rle_dec _ b); repeat split; intros; try lra; try reflexivity. }
    destruct (Reqb_spec a p); cbn; [destruct (Rltb_spec q 0); cbn|].
    + exact (E (a, 0) (or_intror (conj (eq_sym e) eq_refl))).
    + exact (E (p, q) (or_introl eq_refl)).
    + exact (E (p, q) (or_introl eq_refl)).
Qed.
