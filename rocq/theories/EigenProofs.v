(** The spectral theorem for symmetric operators on R^n. *)
From Coq Require Import List Arith Bool Lia Reals Lra Psatz.
From Verif Require Import Vec RVec SolverSpec CGProofs L1RecSpec L1RecProofs SeqSpec SeqProofs SeqProofs2 EigenSpec.
Import ListNotations.
Set Implicit Arguments.
Unset Strict Implicit.
Local Open Scope R_scope.
Notation e := coordinate.

Lemma rsum_some n f : 0 < rsum n f -> exists i, (i < n)%nat /\ 0 < f i.
Proof.
  induction n as [|n IH]; cbn [rsum]; intros H; [lra|]. destruct (Rlt_dec 0 (f n)) as [P|P]; [exists n; auto|].
  destruct IH as (i & Hi & Q); [lra|]. exists i. auto.
Qed.

(** the part of x orthogonal to v 0 .. v (d-1) *)
Fixpoint rest (v : nat -> vec) (d : nat) (x : vec) : vec :=
  match d with O => x | S d => rsub (rest v d x) (rscale (rdot x (v d)) (v d)) end.
Section Ortho.
  Variables (n : nat) (v : nat -> vec).
  Lemma fam_le d d' : orthonormal_family n d v -> (d' <= d)%nat -> orthonormal_family n d' v.
  Proof. intros [L O] H. split; intros; [apply L|apply O]; lia. Qed.
  Lemma rest_len d x : orthonormal_family n d v -> length x = n -> length (rest v d x) = n.
  Proof. induction d as [|d IH]; intros F Lx; cbn [rest]; auto. assert (L := IH (fam_le F (Nat.le_succ_diag_r d)) Lx). destruct F as [FL _]. specialize (FL d ltac:(lia)). vl. Qed.
  Lemma rest_dot d x y : orthonormal_family n d v -> length x = n -> length y = n ->
    rdot (rest v d x) y = rdot x y - rsum d (fun i => rdot x (v i) * rdot (v i) y).
  Proof.
    induction d as [|d IH]; intros F Lx Ly; cbn [rest rsum]; [lra|]. assert (F' := fam_le F (Nat.le_succ_diag_r d)).
    assert (L := rest_len F' Lx). destruct F as [FL _]. specialize (FL d ltac:(lia)). rewrite rdot_sub_l, rdot_scale_l, IH by vl. lra.
  Qed.
  Lemma rest_orth d x i : orthonormal_family n d v -> length x = n -> (i < d)%nat -> rdot (rest v d x) (v i) = 0.
  Proof.
    intros F Lx Hi. rewrite rest_dot by (auto; apply F; auto). rewrite (@rsum_single d i); auto.
    - rewrite (proj2 F) by auto. rewrite Nat.eqb_refl. ring.
    - intros j Hj N. rewrite (proj2 F) by auto. destruct (Nat.eqb_spec j i); [lia|ring].
  Qed.
  Lemma rest_nrm2 d x : orthonormal_family n d v -> length x = n -> nrm2 (rest v d x) = nrm2 x - rsum d (fun i => rdot x (v i) * rdot x (v i)).
  Proof.
    intros F Lx. unfold nrm2. rewrite rest_dot by (auto; now apply rest_len). rewrite (@rsum_0' d (fun i => rdot x (v i) * rdot (v i) (rest v d x))).
    - rewrite rdot_sym, rest_dot by auto. rewrite Rminus_0_r. f_equal. apply rsum_ext. intros i Hi. rewrite (rdot_sym (v i)). ring.
    - intros i Hi. rewrite (rdot_sym (v i)), rest_orth by auto. ring.
  Qed.
  Lemma bessel d x : orthonormal_family n d v -> length x = n -> rsum d (fun i => rdot x (v i) * rdot x (v i)) <= nrm2 x.
  Proof. intros F Lx. pose proof (rest_nrm2 F Lx) as E. pose proof (rdot_pos (rest v d x)). unfold nrm2 in *. lra. Qed.
  Lemma trace d : orthonormal_family n d v -> rsum n (fun j => rsum d (fun i => rdot (e n j) (v i) * rdot (e n j) (v i))) = INR d.
  Proof.
    intros F. rewrite rsum_exchange. rewrite (@rsum_ext d _ (fun _ => 1)); [rewrite rsum_const; ring|]. intros i Hi. destruct F as [FL FO].
    transitivity (rdot (v i) (v i)); [|rewrite FO by auto; now rewrite Nat.eqb_refl]. rewrite (@rdot_sum n) by auto.
    apply rsum_ext. intros j Hj. rewrite coord_dot by auto. reflexivity.
  Qed.
  Lemma e_unit j : (j < n)%nat -> nrm2 (e n j) = 1.
  Proof. intros Hj. unfold nrm2. rewrite coord_dot by (auto; apply coord_len). unfold coordinate. rewrite nth_tab by auto. now rewrite Nat.eqb_refl. Qed.
  Lemma trace_rest d : orthonormal_family n d v -> rsum n (fun j => nrm2 (rest v d (e n j))) = INR n - INR d.
  Proof.
    intros F. rewrite <- (trace F). rewrite <- (Rmult_1_r (INR n)), <- rsum_const, <- rsum_sub. apply rsum_ext. intros j Hj.
    rewrite rest_nrm2 by (auto; apply coord_len). now rewrite e_unit.
  Qed.
  (** at most n orthonormal vectors *)
  Lemma fam_bound d : orthonormal_family n d v -> (d <= n)%nat.
  Proof. intros F. apply INR_le. pose proof (trace_rest F) as E. pose proof (@rsum_pos n (fun j => nrm2 (rest v d (e n j)))) as P. specialize (P ltac:(intros; apply rdot_pos)). lra. Qed.
  (** fewer than n vectors leave room *)
  Lemma room d : orthonormal_family n d v -> (d < n)%nat -> exists x, length x = n /\ nrm2 x = 1 /\ forall i, (i < d)%nat -> rdot x (v i) = 0.
  Proof.
    intros F Hd. destruct (@rsum_some n (fun j => nrm2 (rest v d (e n j)))) as (j & Hj & P).
    { rewrite trace_rest by auto. apply lt_INR in Hd. lra. }
    set (y := rest v d (e n j)) in *. assert (Ly : length y = n) by (apply rest_len; auto; apply coord_len).
    assert (Py : 0 < nrm y) by (unfold nrm; now apply sqrt_lt_R0).
    exists (rscale (/ nrm y) y). split; [vl|]. split.
    - unfold nrm2. rewrite rdot_scale_l, rdot_scale_r, <- nrm_sq. field. lra.
    - intros i Hi. rewrite rdot_scale_l. unfold y. rewrite rest_orth by (auto; apply coord_len). ring.
  Qed.
  (** n orthonormal vectors: only zero is orthogonal to all *)
  Lemma rest_full x : orthonormal_family n n v -> length x = n -> rest v n x = rzero n.
  Proof.
    intros F Lx. assert (E : forall j, (j < n)%nat -> rest v n (e n j) = rzero n).
    { intros j Hj. assert (L : length (rest v n (e n j)) = n) by (apply rest_len; auto; apply coord_len).
      assert (Z : nrm2 (rest v n (e n j)) = 0). { revert j Hj L. intros j Hj _. apply (@rsum_eq0 n (fun j => nrm2 (rest v n (e n j)))); auto; [intros; apply rdot_pos|]. rewrite trace_rest by auto. ring. }
      pose proof (@rdot_eq0 _ Z) as Q. now rewrite L in Q. }
    assert (L := rest_len F Lx). apply vec_eq; [vl|]. intros j Hj. rewrite L in Hj. rewrite rzero_nth. rewrite <- (coord_dot L Hj), rdot_sym.
    rewrite rest_dot by (auto; apply coord_len). rewrite (rdot_sym x). pose proof (rest_dot F (coord_len n j) Lx) as Q. rewrite E, rdot_zero_l in Q by auto.
    rewrite Q at 1. apply f_equal2 with (f := Rminus); auto.
    apply rsum_ext. intros. rewrite (rdot_sym x), (rdot_sym _ (e n j)). ring.
  Qed.
  Lemma parseval x y : orthonormal_family n n v -> length x = n -> length y = n -> rdot x y = rsum n (fun i => rdot x (v i) * rdot y (v i)).
  Proof.
    intros F Lx Ly. pose proof (rest_dot F Lx Ly) as Q. rewrite rest_full, rdot_zero_l in Q by auto. rewrite (@rsum_ext n _ (fun i => rdot x (v i) * rdot (v i) y)); [lra|]. intros. now rewrite (rdot_sym y).
  Qed.
  Lemma coords_eq x y : orthonormal_family n n v -> length x = n -> length y = n -> (forall i, (i < n)%nat -> rdot x (v i) = rdot y (v i)) -> x = y.
  Proof.
    intros F Lx Ly H. apply rdot_sub_eq0; [congruence|]. rewrite parseval by (auto; vl). apply rsum_0'. intros i Hi. rewrite rdot_sub_l, H by (auto; vl). ring.
  Qed.
  (** the vector with coordinates a *)
  Definition of_coords (a : nat -> R) : vec := tab n (fun j => rsum n (fun i => a i * (v i)@j)).
  Lemma of_coords_len a : length (of_coords a) = n. Proof. apply tab_length. Qed.
  Lemma of_coords_dot a i : orthonormal_family n n v -> (i < n)%nat -> rdot (of_coords a) (v i) = a i.
  Proof.
    intros [FL FO] Hi. rewrite (@rdot_sum n) by (auto; apply of_coords_len).
    transitivity (rsum n (fun j => rsum n (fun k => a k * ((v k)@j * (v i)@j)))).
    { apply rsum_ext. intros j Hj. unfold of_coords. rewrite nth_tab by auto. rewrite <- rsum_mul_r. apply rsum_ext. intros. ring. }
    rewrite rsum_exchange. transitivity (rsum n (fun k => a k * rdot (v k) (v i))).
    { apply rsum_ext. intros k Hk. rewrite rsum_mul_l. f_equal. now rewrite (@rdot_sum n) by auto. }
    rewrite (@rsum_single n i); [rewrite FO, Nat.eqb_refl by auto; ring|auto|]. intros k Hk N. rewrite FO by auto. destruct (Nat.eqb_spec k i); [lia|ring].
  Qed.
End Ortho.

(** operators with an adjoint are bounded *)
Lemma op_bounded n m A T : adjoint_ops n m A T -> exists C, 0 <= C /\ forall x, length x = n -> nrm (A x) <= C * nrm x.
Proof.
  intros (LA & LT & Adj). exists (rsum m (fun i => nrm (T (e m i)))). split; [apply rsum_pos; intros; apply nrm_pos|]. intros x Lx.
  assert (L : length (A x) = m) by now apply LA. eapply Rle_trans; [apply nrm_le_nrm1|]. rewrite (@nrm1_sum m (A x) L), <- rsum_mul_r. apply rsum_le. intros i Hi.
  rewrite <- (coord_dot L Hi), (rdot_sym (e m i)), Adj by (auto; apply coord_len). rewrite rdot_sym. eapply Rle_trans; [apply cauchy|]. lra.
Qed.
Lemma sym_adj n H : linear_op n n H -> symmetric_op n H -> adjoint_ops n n H H.
Proof. intros L S. split; auto. Qed.

Section Spectral.
  Variables (n : nat) (H : vec -> vec).
  Hypothesis LH : linear_op n n H.
  Hypothesis SH : symmetric_op n H.
  Lemma H_len x : length x = n -> length (H x) = n. Proof. apply LH. Qed.
  (** a symmetric form that is nonnegative on an invariant set of vectors closed under combinations vanishes only in the kernel *)
  Lemma next_eigen d v lam : orthonormal_family n d v -> (forall i, (i < d)%nat -> H (v i) = rscale (lam i) (v i)) -> (d < n)%nat ->
    exists w l, length w = n /\ nrm2 w = 1 /\ (forall i, (i < d)%nat -> rdot w (v i) = 0) /\ H w = rscale l w /\
      forall x, length x = n -> (forall i, (i < d)%nat -> rdot x (v i) = 0) -> rdot x (H x) <= l * nrm2 x.
  Proof.
    intros F EV Hd. destruct (op_bounded (sym_adj LH SH)) as (C & C0 & HC).
    set (dom := fun x : vec => nrm2 x = 1 /\ forall i, (i < d)%nat -> rdot x (v i) = 0).
    set (B := fun x => rsub (rscale C x) (H x)). set (Q := fun x => rdot x (B x)).
    assert (LB : forall x, length x = n -> length (B x) = n) by (intros x Lx; unfold B; pose proof (H_len Lx); vl).
    assert (QP : forall x, length x = n -> 0 <= Q x).
    { intros x Lx. unfold Q, B. pose proof (H_len Lx) as L. rewrite rdot_sub_r, rdot_scale_r by vl. pose proof (cauchy_le x (H x)). specialize (HC x Lx). pose proof (nrm_pos x).
      pose proof (nrm_sq x). assert (nrm x * nrm (H x) <= nrm x * (C * nrm x)) by (apply Rmult_le_compat_l; auto). nra. }
    assert (BS : forall x y, length x = n -> length y = n -> rdot (B x) y = rdot x (B y)).
    { intros x y Lx Ly. unfold B. pose proof (H_len Lx). pose proof (H_len Ly). rewrite rdot_sub_l, rdot_sub_r, rdot_scale_l, rdot_scale_r, SH by (auto; vl). ring. }
    assert (Bsub : forall x y, length x = n -> length y = n -> B (rsub x y) = rsub (B x) (B y)).
    { intros x y Lx Ly. unfold B. pose proof (H_len Lx). pose proof (H_len Ly). rewrite (@lin_sub n n H x y LH) by auto. veq. }
    assert (Qexp : forall x l, length x = n -> length l = n -> Q x = Q l + 2 * rdot (B l) (rsub x l) + Q (rsub x l)).
    { intros x l Lx Ll. unfold Q. pose proof (LB _ Lx). pose proof (LB _ Ll). rewrite Bsub by auto. rewrite !rdot_sub_l, !rdot_sub_r by (auto; vl).
      rewrite <- (BS x l) by auto. rewrite (rdot_sym (B x) l). rewrite <- (BS l x) by auto. rewrite (rdot_sym (B l) l). ring. }
    destruct (room F Hd) as (x0 & L0 & U0 & O0).
    destruct (@attains n dom Q) with (x0 := x0) (c := 0) (B := 1) as (w & Lw & [Uw Ow] & Mw); auto.
    - intros x l Lx Dx Cx. apply cvg_of in Cx; auto. split.
      + apply UL_sequence with (fun k => rdot (x k) (x k)); [now apply cvg_dot with n|]. apply cv_ext with (fun _ => 1); [intros k; symmetry; apply Dx|apply cv_const].
      + intros i Hi. apply UL_sequence with (fun k => rdot (x k) (v i)); [apply cvg_dot with n; auto; apply cvg_const; now apply F|].
        apply cv_ext with (fun _ => 0); [intros k; symmetry; now apply Dx|apply cv_const].
    - intros l Ll. exists (2 * nrm (B l)). split; [pose proof (nrm_pos (B l)); lra|]. intros x Lx. rewrite (Qexp x l) by auto.
      pose proof (QP (rsub x l) ltac:(vl)). pose proof (cauchy (B l) (rsub x l)) as K. pose proof (Rle_abs (- rdot (B l) (rsub x l))) as K2. rewrite Rabs_Ropp in K2. lra.
    - split; auto.
    - intros z Lz [Uz _] _. unfold nrm. unfold nrm2 in Uz. rewrite Uz, sqrt_1. lra.
    - set (l := C - Q w).
      assert (Opt : forall x, length x = n -> (forall i, (i < d)%nat -> rdot x (v i) = 0) -> rdot x (H x) <= l * nrm2 x).
      { intros x Lx Ox. pose proof (rdot_pos x) as [P|Z].
        - assert (Px : 0 < nrm x) by (unfold nrm; now apply sqrt_lt_R0). set (z := rscale (/ nrm x) x).
          assert (Lz : length z = n) by (unfold z; vl). assert (Dz : dom z). { split; [unfold z, nrm2; rewrite rdot_scale_l, rdot_scale_r, <- nrm_sq; field; lra|]. intros i Hi. unfold z. rewrite rdot_scale_l, Ox by auto. ring. }
          specialize (Mw z Lz Dz). assert (EQ : Q z = C - rdot x (H x) / nrm2 x).
          { unfold Q, B. pose proof (H_len Lx). unfold z at 2 3. rewrite (proj2 (proj2 LH)) by auto. unfold z. rewrite rdot_sub_r by vl. repeat rewrite ?rdot_scale_r, ?rdot_scale_l.
            unfold nrm2. rewrite <- (nrm_sq x). field. lra. }
          rewrite EQ in Mw. unfold l. unfold nrm2 in *. assert (E : rdot x (H x) = rdot x (H x) / rdot x x * rdot x x) by (field; lra). rewrite E. apply Rmult_le_compat_r; lra.
        - assert (E : x = rzero n) by (rewrite <- Lx; now apply rdot_eq0). rewrite E. unfold nrm2. rewrite !rdot_zero_l. lra. }
      exists w, l. repeat split; auto.
      (* B w - Q w * w vanishes *)
      set (g := rsub (H w) (rscale l w)). assert (LHw := H_len Lw). assert (Lg : length g = n) by (unfold g; vl).
      assert (Og : forall i, (i < d)%nat -> rdot g (v i) = 0).
      { intros i Hi. unfold g. destruct F as [FL _]. specialize (FL i Hi). rewrite rdot_sub_l, rdot_scale_l, Ow, SH, EV, rdot_scale_r, Ow by (auto; vl). ring. }
      assert (Ew : rdot w (H w) = l). { unfold l, Q, B. rewrite rdot_sub_r, rdot_scale_r by vl. unfold nrm2 in Uw. rewrite Uw. ring. }
      assert (Ew2 : rdot w w = 1) by exact Uw.
      assert (P : forall t, 0 <= - 2 * t * nrm2 g + t * t * (l * nrm2 g - rdot g (H g))).
      { intros t. set (x := radd w (rscale t g)). assert (Lx : length x = n) by (unfold x; vl).
        specialize (Opt x Lx). assert (Ox : forall i, (i < d)%nat -> rdot x (v i) = 0). { intros i Hi. unfold x. rewrite rdot_add_l, rdot_scale_l, Ow, Og by (auto; vl). ring. }
        specialize (Opt Ox). pose proof (H_len Lg) as LHg. assert (HX : H x = radd (H w) (rscale t (H g))). { unfold x. rewrite (proj1 (proj2 LH)), (proj2 (proj2 LH)) by vl. reflexivity. }
        rewrite HX in Opt. unfold x, nrm2 in Opt |- *. rewrite !rdot_add_l, !rdot_add_r, !rdot_scale_l, !rdot_scale_r in Opt by (auto; vl).
        rewrite (rdot_sym g (H w)), (rdot_sym g w) in Opt. rewrite <- (@SH w g) in Opt by auto.
        assert (G : rdot g g = rdot (H w) g - l * rdot w g). { unfold g at 1. rewrite rdot_sub_l, rdot_scale_l by vl. ring. }
        rewrite Ew, Ew2 in Opt. rewrite G. rewrite G in Opt. nra. }
      assert (Z : nrm2 g = 0).
      { set (K := l * nrm2 g - rdot g (H g)) in *. pose proof (rdot_pos g) as [G|G]; [|now symmetry]. exfalso. unfold nrm2 in *.
        pose proof (P (rdot g g / (Rabs K + 1))) as P1. pose proof (Rle_abs K) as AK. pose proof (Rabs_pos K).
        set (t := rdot g g / (Rabs K + 1)) in *. assert (T : 0 < t) by (unfold t; apply Rdiv_lt_0_compat; lra).
        assert (TK : t * K < rdot g g). { assert (t * (Rabs K + 1) = rdot g g) by (unfold t; field; lra). nra. }
        nra. }
      assert (E : g = rzero n) by (rewrite <- Lg; now apply rdot_eq0).
      apply rdot_sub_eq0; [vl|]. fold g. rewrite E. apply rdot_zero_l.
  Qed.
  Theorem spectral : exists lam v, eigenbasis n H lam v.
  Proof.
    assert (X : forall d, (d <= n)%nat -> exists lam v, orthonormal_family n d v /\ (forall i, (i < d)%nat -> H (v i) = rscale (lam i) (v i)) /\
      (forall i j, (i <= j < d)%nat -> lam j <= lam i) /\
      (forall i x, (i < d)%nat -> length x = n -> (forall j, (j < i)%nat -> rdot x (v j) = 0) -> rdot x (H x) <= lam i * nrm2 x)).
    { induction d as [|d IH]; intros Hd.
      - exists (fun _ => 0), (fun _ => []). split; [split; intros; lia|]. repeat split; intros; lia.
      - destruct IH as (lam & v & F & EV & M & O); [lia|]. destruct (next_eigen F EV Hd) as (w & l & Lw & Uw & Ow & Ew & Opt).
        exists (fun i => if Nat.eqb i d then l else lam i), (fun i => if Nat.eqb i d then w else v i).
        assert (LT : forall i, (i < d)%nat -> Nat.eqb i d = false) by (intros i Hi; apply Nat.eqb_neq; lia).
        repeat split.
        + intros i Hi. destruct (Nat.eqb_spec i d); auto. apply F. lia.
        + intros i j Hi Hj. destruct (Nat.eqb_spec i d) as [->|Ni], (Nat.eqb_spec j d) as [->|Nj].
          * rewrite Nat.eqb_refl. exact Uw.
          * rewrite Ow by lia. destruct (Nat.eqb_spec d j); [lia|auto].
          * rewrite rdot_sym, Ow by lia. destruct (Nat.eqb_spec i d); [lia|auto].
          * apply F; lia.
        + intros i Hi. destruct (Nat.eqb_spec i d); auto. apply EV. lia.
        + intros i j Hi. destruct (Nat.eqb_spec i d) as [->|Ni], (Nat.eqb_spec j d) as [->|Nj]; try lra; try lia; [|apply M; lia].
          specialize (O i w ltac:(lia) Lw ltac:(intros; apply Ow; lia)). rewrite Ew, rdot_scale_r in O. unfold nrm2 in *. rewrite Uw in O. lra.
        + intros i x Hi Lx Ox. destruct (Nat.eqb_spec i d) as [->|Ni].
          * apply Opt; auto. intros j Hj. specialize (Ox j Hj). now rewrite (LT j Hj) in Ox.
          * apply O; auto; [lia|]. intros j Hj. specialize (Ox j Hj). now rewrite (LT j ltac:(lia)) in Ox. }
    destruct (X n (Nat.le_refl n)) as (lam & v & F & EV & M & _). exists lam, v. split; auto.
  Qed.
End Spectral.

(** coordinates in an eigenbasis *)
Section Basis.
  Variables (n : nat) (H : vec -> vec) (lam : nat -> R) (v : nat -> vec).
  Hypothesis LH : linear_op n n H.
  Hypothesis SH : symmetric_op n H.
  Hypothesis EB : eigenbasis n H lam v.
  Lemma eb_coord x i : length x = n -> (i < n)%nat -> rdot (H x) (v i) = lam i * rdot x (v i).
  Proof. intros Lx Hi. destruct EB as ([FL _] & EV & _). rewrite SH, EV, rdot_scale_r by auto. ring. Qed.
  Lemma eb_quad x : length x = n -> rdot x (H x) = rsum n (fun i => lam i * (rdot x (v i) * rdot x (v i))).
  Proof. intros Lx. rewrite (parseval (proj1 EB)) by (auto; now apply LH). apply rsum_ext. intros i Hi. rewrite eb_coord by auto. ring. Qed.
  Lemma eb_nrm2 x : length x = n -> nrm2 x = rsum n (fun i => rdot x (v i) * rdot x (v i)).
  Proof. intros Lx. unfold nrm2. now rewrite (parseval (proj1 EB)). Qed.
  Lemma eb_value i : (i < n)%nat -> lam i = rdot (v i) (H (v i)).
  Proof. intros Hi. destruct EB as ([FL FO] & EV & _). rewrite EV, rdot_scale_r, FO, Nat.eqb_refl by auto. ring. Qed.
  Lemma eb_range lo hi : (forall x, length x = n -> lo * nrm2 x <= rdot x (H x) <= hi * nrm2 x) -> forall i, (i < n)%nat -> lo <= lam i <= hi.
  Proof. intros B i Hi. destruct EB as ([FL FO] & _ & _). specialize (B (v i) (FL i Hi)). rewrite <- eb_value in B by auto. unfold nrm2 in B. rewrite FO, Nat.eqb_refl in B by auto. lra. Qed.
  (** functions of the operator *)
  Definition eb_fun (f : R -> R) (x : vec) : vec := of_coords n v (fun i => f (lam i) * rdot x (v i)).
  Lemma eb_fun_len f x : length (eb_fun f x) = n. Proof. apply of_coords_len. Qed.
  Lemma eb_fun_coord f x i : (i < n)%nat -> rdot (eb_fun f x) (v i) = f (lam i) * rdot x (v i).
  Proof. intros Hi. unfold eb_fun. now rewrite (of_coords_dot _ (proj1 EB)). Qed.
  Lemma eb_fun_linear f : linear_op n n (eb_fun f).
  Proof.
    split; [intros; apply eb_fun_len|]. split; intros; apply (coords_eq (proj1 EB)); try apply eb_fun_len; try (rewrite ?radd_len, ?rscale_len, ?eb_fun_len; lia);
      intros i Hi; rewrite ?rdot_add_l, ?rdot_scale_l, ?eb_fun_coord, ?rdot_add_l, ?rdot_scale_l by (auto; rewrite ?eb_fun_len; congruence); ring.
  Qed.
  Lemma eb_fun_symmetric f : symmetric_op n (eb_fun f).
  Proof.
    intros x y Lx Ly. rewrite !(parseval (proj1 EB)) by (auto; apply eb_fun_len). apply rsum_ext. intros i Hi. rewrite !eb_fun_coord by auto. ring.
  Qed.
End Basis.
