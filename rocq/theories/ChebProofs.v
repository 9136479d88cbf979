(** Chebyshev polynomials of an operator and the Krylov space. *)
From Coq Require Import List Arith Bool Lia Reals Lra Psatz.
From Verif Require Import Vec RVec SolverSpec CGProofs EigenSpec EigenProofs.
Import ListNotations.
Set Implicit Arguments.
Unset Strict Implicit.
Local Open Scope R_scope.

(** T_k and T_(k+1) at x *)
Fixpoint chebp (k : nat) (x : R) : R * R := match k with O => (1, x) | S k => let '(a, b) := chebp k x in (b, 2 * x * b - a) end.
Definition cheb (k : nat) (x : R) : R := fst (chebp k x).
Lemma chebp_snd k x : snd (chebp k x) = cheb (S k) x.
Proof. unfold cheb. cbn [chebp]. destruct (chebp k x). reflexivity. Qed.
Lemma cheb_0 x : cheb 0 x = 1. Proof. reflexivity. Qed.
Lemma cheb_1 x : cheb 1 x = x. Proof. reflexivity. Qed.
Lemma cheb_SS k x : cheb (S (S k)) x = 2 * x * cheb (S k) x - cheb k x.
Proof. rewrite <- !chebp_snd. cbn [chebp]. unfold cheb. destruct (chebp k x). reflexivity. Qed.
Lemma pair_ind (P : nat -> Prop) : P O -> P 1%nat -> (forall k, P k -> P (S k) -> P (S (S k))) -> forall k, P k.
Proof. intros H0 H1 HS k. enough (P k /\ P (S k)) by tauto. induction k as [|k [A B]]; auto. Qed.
Lemma cheb_cos t k : cheb k (cos t) = cos (INR k * t).
Proof.
  induction k as [| |k IH1 IH2] using pair_ind.
  - rewrite cheb_0. cbn. now rewrite Rmult_0_l, cos_0.
  - rewrite cheb_1. cbn. now rewrite Rmult_1_l.
  - rewrite cheb_SS, IH1, IH2. rewrite !S_INR. replace ((INR k + 1 + 1) * t) with ((INR k + 1) * t + t) by ring. replace (INR k * t) with ((INR k + 1) * t - t) by ring.
    rewrite cos_plus, cos_minus. ring.
Qed.
Lemma cheb_abs k x : -1 <= x <= 1 -> Rabs (cheb k x) <= 1.
Proof. intros H. rewrite <- (cos_acos x H), cheb_cos. apply Rabs_le. apply COS_bound. Qed.
Lemma cheb_joukowski s k : s <> 0 -> cheb k ((s + / s) / 2) = (s ^ k + / s ^ k) / 2.
Proof.
  intros Hs. induction k as [| |k IH1 IH2] using pair_ind.
  - rewrite cheb_0. cbn. field.
  - rewrite cheb_1. cbn. field. auto.
  - rewrite cheb_SS, IH1, IH2. cbn [pow]. field. split; auto. now apply pow_nonzero.
Qed.

(** *** combinations *)
Lemma lincomb_len n cs vs : (forall v, In v vs -> length v = n) -> length (lincomb n cs vs) = n.
Proof. revert vs. induction cs as [|c cs IH]; intros [|v vs] H; cbn [lincomb]; try apply rzero_len. rewrite radd_len, rscale_len, IH by (intros; apply H; now right). rewrite (H v) by now left. lia. Qed.
Lemma span_len n vs z : (forall v, In v vs -> length v = n) -> in_span n vs z -> length z = n.
Proof. intros H (cs & _ & ->). now apply lincomb_len. Qed.
Lemma span_zero n vs : (forall v, In v vs -> length v = n) -> in_span n vs (rzero n).
Proof.
  intros H. exists (repeat 0 (length vs)). split; [apply repeat_length|]. induction vs as [|v vs IH]; auto. cbn [length repeat lincomb]. rewrite <- IH by (intros; apply H; now right).
  assert (length v = n) by (apply H; now left). veq.
Qed.
Lemma span_scale n vs c z : (forall v, In v vs -> length v = n) -> in_span n vs z -> in_span n vs (rscale c z).
Proof.
  intros H (cs & L & ->). exists (map (Rmult c) cs). split; [now rewrite map_length|]. revert cs L. induction vs as [|v vs IH]; intros [|a cs] L; try discriminate; cbn [map lincomb]; [veq|].
  injection L as L. assert (length v = n) by (apply H; now left). rewrite <- IH; auto; [|intros; apply H; now right]. pose proof (@lincomb_len n cs vs ltac:(intros; apply H; now right)). veq.
Qed.
Lemma span_add n vs y z : (forall v, In v vs -> length v = n) -> in_span n vs y -> in_span n vs z -> in_span n vs (radd y z).
Proof.
  intros H (cs & L & ->) (ds & L' & ->). exists (radd cs ds). split; [vl|]. revert cs ds L L'. induction vs as [|v vs IH]; intros [|a cs] [|b ds] L L'; try discriminate; cbn [radd zipw lincomb]; [veq|].
  injection L as L. injection L' as L'. assert (length v = n) by (apply H; now left). change (zipw Rplus cs ds) with (radd cs ds). rewrite <- IH; auto; [|intros; apply H; now right].
  pose proof (@lincomb_len n cs vs ltac:(intros; apply H; now right)). pose proof (@lincomb_len n ds vs ltac:(intros; apply H; now right)). veq.
Qed.
Lemma span_snoc n vs w z : (forall v, In v vs -> length v = n) -> length w = n -> in_span n vs z -> in_span n (vs ++ [w]) z.
Proof.
  intros H Lw (cs & L & ->). exists (cs ++ [0]). split; [rewrite !app_length, L; reflexivity|]. revert cs L. induction vs as [|v vs IH]; intros [|a cs] L; try discriminate; cbn [app lincomb]; [veq|].
  injection L as L. rewrite IH; auto. intros; apply H; now right.
Qed.
Lemma span_map n P vs z : linear_op n n P -> (forall v, In v vs -> length v = n) -> in_span n vs z -> in_span n (map P vs) (P z).
Proof.
  intros LP H (cs & L & ->). exists cs. split; [now rewrite map_length|]. revert cs L. induction vs as [|v vs IH]; intros [|a cs] L; try discriminate; cbn [map lincomb]; [now apply lin_zero|].
  injection L as L. assert (length v = n) by (apply H; now left). pose proof (@lincomb_len n cs vs ltac:(intros; apply H; now right)).
  rewrite (proj1 (proj2 LP)), (proj2 (proj2 LP)) by vl. rewrite IH; auto. intros; apply H; now right.
Qed.
Section Krylov.
  Variables (n : nat) (P : vec -> vec) (r : vec).
  Hypothesis LP : linear_op n n P.
  Hypothesis Lr : length r = n.
  Lemma iter_len i : length (Nat.iter i P r) = n. Proof. induction i; auto. now apply LP. Qed.
  Lemma kry_len k v : In v (krylov P r k) -> length v = n.
  Proof. unfold krylov. rewrite in_map_iff. intros (i & <- & _). apply iter_len. Qed.
  Lemma kry_S k : krylov P r (S k) = krylov P r k ++ [Nat.iter k P r].
  Proof. unfold krylov. now rewrite seq_S, map_app. Qed.
  Lemma kry_cons k : krylov P r (S k) = r :: map P (krylov P r k).
  Proof. unfold krylov. cbn [seq map]. f_equal. rewrite <- seq_shift, !map_map. reflexivity. Qed.
  Lemma kry_mono k z : in_span n (krylov P r k) z -> in_span n (krylov P r (S k)) z.
  Proof. intros H. rewrite kry_S. apply span_snoc; auto; [apply kry_len|apply iter_len]. Qed.
  Lemma kry_step k z : in_span n (krylov P r k) z -> in_span n (krylov P r (S k)) (P z).
  Proof.
    intros H. rewrite kry_cons. assert (Lz : length z = n) by (eapply span_len; [apply kry_len|eauto]). destruct (span_map LP (@kry_len k) H) as (cs & L & E). exists (0 :: cs). split; [cbn; now f_equal|].
    cbn [lincomb]. rewrite <- E. assert (length (P z) = n) by now apply LP. veq.
  Qed.
  Lemma kry_start k : in_span n (krylov P r (S k)) r.
  Proof.
    rewrite kry_cons. assert (X : forall v, In v (map P (krylov P r k)) -> length v = n). { intros v. rewrite in_map_iff. intros (u & <- & Hu). apply LP. now apply kry_len with k. }
    destruct (span_zero X) as (cs & L & E). exists (1 :: cs). split; [cbn; now f_equal|]. cbn [lincomb]. rewrite <- E. veq.
  Qed.
End Krylov.

(** *** the Chebyshev element of the Krylov space *)
Section Cheb.
  Variables (n : nat) (P0 P : vec -> vec) (r e0 : vec) (mu L shift : R).
  Hypothesis LP0 : linear_op n n P0.
  Hypothesis EP : forall x, length x = n -> P x = radd (P0 x) (rscale shift x).
  Hypothesis Le : length e0 = n.
  Hypothesis Er : r = ropp (P e0).
  Hypothesis HL : mu < L.
  Lemma P_len x : length x = n -> length (P x) = n.
  Proof. intros Lx. rewrite EP by auto. assert (length (P0 x) = n) by now apply LP0. vl. Qed.
  Lemma r_len : length r = n. Proof. rewrite Er, ropp_len. now apply P_len. Qed.
  Let c := (L + mu) / (L - mu).
  Let q := 2 / (L - mu).
  Let t := fun k => cheb k c.
  Fixpoint wp (k : nat) : vec * vec :=
    match k with O => (rzero n, rscale q r)
    | S k => let '(a, b) := wp k in (b, radd (rsub (rscale 2 (rsub (rscale c b) (rscale q (P b)))) a) (rscale (2 * t (S k) * q) r)) end.
  Definition w (k : nat) : vec := fst (wp k).
  Lemma wp_snd k : snd (wp k) = w (S k).
  Proof. unfold w. cbn [wp]. destruct (wp k). reflexivity. Qed.
  Lemma w_SS k : w (S (S k)) = radd (rsub (rscale 2 (rsub (rscale c (w (S k))) (rscale q (P (w (S k)))))) (w k)) (rscale (2 * t (S k) * q) r).
  Proof. rewrite <- !wp_snd. cbn [wp]. unfold w. destruct (wp k). reflexivity. Qed.
  Lemma w_span k : in_span n (krylov P0 r k) (w k) /\ length (w k) = n.
  Proof.
    pose proof r_len as Lr. induction k as [| |k [I1 L1] [I2 L2]] using pair_ind.
    - split; [|apply rzero_len]. apply span_zero. intros v [].
    - split; [|cbn; vl]. apply span_scale; [apply kry_len; auto|]. now apply kry_start.
    - pose proof (P_len L2) as LPw. assert (KL := @kry_len n P0 r LP0 Lr (S (S k))). assert (LPw0 : length (P0 (w (S k))) = n) by now apply LP0. rewrite w_SS. split; [|vl].
      assert (X : forall x, length x = n -> in_span n (krylov P0 r (S (S k))) x -> in_span n (krylov P0 r (S (S k))) (ropp x)).
      { intros x Lx Hx. replace (ropp x) with (rscale (-1) x) by veq. now apply span_scale. }
      assert (I2' : in_span n (krylov P0 r (S (S k))) (w (S k))) by now apply kry_mono.
      assert (I1' : in_span n (krylov P0 r (S (S k))) (w k)) by (apply kry_mono; auto; apply kry_mono; auto).
      assert (IP : in_span n (krylov P0 r (S (S k))) (P (w (S k)))). { rewrite EP by auto. apply span_add; auto; [now apply kry_step|now apply span_scale]. }
      assert (SB : forall x y, length x = n -> length y = n -> in_span n (krylov P0 r (S (S k))) x -> in_span n (krylov P0 r (S (S k))) y -> in_span n (krylov P0 r (S (S k))) (rsub x y)).
      { intros x y Lx Ly Hx Hy. replace (rsub x y) with (radd x (ropp y)) by veq. apply span_add; auto. }
      apply span_add; auto.
      + apply SB; auto; [vl|]. apply span_scale; auto. apply SB; auto; try vl; now apply span_scale.
      + apply span_scale; auto. now apply kry_start.
  Qed.
  (** along an eigenfunctional of P *)
  Variables (phi : vec -> R) (lam : R).
  Hypothesis Pa : forall x y, length x = n -> length y = n -> phi (radd x y) = phi x + phi y.
  Hypothesis Ps : forall a x, length x = n -> phi (rscale a x) = a * phi x.
  Hypothesis PP : forall x, length x = n -> phi (P x) = lam * phi x.
  Let mm := (L + mu - 2 * lam) / (L - mu).
  Lemma phi_sub x y : length x = n -> length y = n -> phi (rsub x y) = phi x - phi y.
  Proof. intros Lx Ly. replace (rsub x y) with (radd x (rscale (-1) y)) by veq. rewrite Pa, Ps by vl. ring. Qed.
  Lemma phi_r : phi r = - (lam * phi e0).
  Proof. rewrite Er. assert (LPe := P_len Le). replace (ropp (P e0)) with (rscale (-1) (P e0)) by veq. rewrite Ps, PP by auto. ring. Qed.
  Lemma w_phi k : phi (w k) = (cheb k mm - t k) * phi e0.
  Proof.
    assert (D : L - mu <> 0) by lra. pose proof r_len as Lr.
    induction k as [| |k IH1 IH2] using pair_ind.
    - unfold w, t. cbn. replace (rzero n) with (rscale 0 (rzero n)) by veq. rewrite Ps by apply rzero_len. ring.
    - unfold w, t. cbn [wp fst]. rewrite !cheb_1, Ps, phi_r by auto. unfold q, mm, c. field. auto.
    - rewrite w_SS. destruct (w_span k) as [_ L1]. destruct (w_span (S k)) as [_ L2]. pose proof (P_len L2) as L3.
      rewrite Pa, phi_sub, Ps, phi_sub, !Ps, PP, IH1, IH2, phi_r by vl. unfold t. rewrite !cheb_SS. unfold q, mm, c. field. auto.
  Qed.
  Definition dk (k : nat) : vec := rscale (/ t k) (w k).
  Lemma dk_span k : in_span n (krylov P0 r k) (dk k) /\ length (dk k) = n.
  Proof. destruct (w_span k) as [H Lw]. split; [|unfold dk; vl]. apply span_scale; auto. apply kry_len; auto. apply r_len. Qed.
  Lemma dk_phi k : t k <> 0 -> phi (radd e0 (dk k)) = cheb k mm / t k * phi e0.
  Proof. intros Ht. destruct (w_span k) as [_ Lw]. unfold dk. rewrite Pa, Ps, w_phi by vl. field. auto. Qed.
End Cheb.
