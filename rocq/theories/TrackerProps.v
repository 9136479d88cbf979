(** C76: progress trackers record and print every call faithfully. *)
From Coq Require Import List Arith Bool Lia Reals Lra Psatz.
From Verif Require Import Vec RVec Loop SortedL1Model SortedL1Proofs TrackerModel.
Import ListNotations.
Local Open Scope R_scope.

(** a state from which a residual norm can be computed *)
Definition has_residual (s : tracked) : Prop :=
  match ts_r_norm_sqr s with Some q => 0 <= q | None => ts_r s <> None end.
(** what one call should record *)
Definition residual_norm (s : tracked) : R :=
  match ts_r_norm_sqr s, ts_r s with Some q, _ => sqrt q | None, Some r => nrm r | None, None => 0 end.

Lemma r_norm_ok s : has_residual s -> get_r_norm s = Val (residual_norm s).
Proof.
  unfold has_residual, get_r_norm, residual_norm. destruct (ts_r_norm_sqr s) as [q|].
  - intros H. destruct (Rltb_spec q 0); [lra|reflexivity].
  - destruct (ts_r s); [reflexivity|congruence].
Qed.
Lemma track_all_gen calls : forall t, (forall c, In c calls -> has_residual (fst c)) ->
  let t' := track_all t calls in
  pt_r_norms t' = pt_r_norms t ++ map (fun c => Val (residual_norm (fst c))) calls /\
  pt_x_norms t' = pt_x_norms t ++ map (fun c => get_x_norm (fst c)) calls /\
  pt_iterations t' = pt_iterations t ++ map (fun c => ts_iterations (fst c)) calls /\
  pt_snr t' = pt_snr t ++ match pt_x0 t with Some x0 => map (fun c => signal_noise_ratio x0 (get_x_like (fst c) x0)) calls | None => [] end /\
  pt_x0 t' = pt_x0 t /\ pt_every t' = pt_every t.
Proof.
  induction calls as [|[s more] calls IH]; intros t H; cbv zeta.
  - cbn. rewrite !app_nil_r. destruct (pt_x0 t); rewrite app_nil_r; auto 6.
  - cbn [track_all fold_left fst snd map]. change (fold_left _ calls ?u) with (track_all u calls).
    pose proof (r_norm_ok s (H _ (or_introl eq_refl))) as Er. cbn [fst] in Er.
    set (t1 := fst (track t s more)).
    assert (E : pt_r_norms t1 = pt_r_norms t ++ [Val (residual_norm s)] /\ pt_x_norms t1 = pt_x_norms t ++ [get_x_norm s] /\ pt_iterations t1 = pt_iterations t ++ [ts_iterations s] /\
      pt_snr t1 = pt_snr t ++ match pt_x0 t with Some x0 => [signal_noise_ratio x0 (get_x_like s x0)] | None => [] end /\ pt_x0 t1 = pt_x0 t /\ pt_every t1 = pt_every t).
    { unfold t1, track. rewrite Er. cbv zeta. destruct (pt_every t =? 0)%nat; [|destruct (_ || _)%bool]; cbn; destruct (pt_x0 t); rewrite ?app_nil_r; auto 6. }
    destruct E as (E1 & E2 & E3 & E4 & E5 & E6). destruct (IH t1 (fun c Hc => H c (or_intror Hc))) as (F1 & F2 & F3 & F4 & F5 & F6).
    rewrite F1, F2, F3, F4, F5, F6, E1, E2, E3, E4, E5, E6. rewrite <- !app_assoc. cbn [app]. repeat (split; [reflexivity|]). split; [|auto].
    destruct (pt_x0 t); reflexivity.
Qed.
(** After any sequence of calls the lists hold one entry per call, in order: the
    residual norm, the norm of the solution and the iteration number; the signal to
    noise ratios exactly when a reference was given. *)
Theorem C76_records x0 every calls : (forall c, In c calls -> has_residual (fst c)) ->
  let t := track_all (progress_tracker x0 every) calls in
  pt_r_norms t = map (fun c => Val (residual_norm (fst c))) calls /\
  pt_x_norms t = map (fun c => get_x_norm (fst c)) calls /\
  pt_iterations t = map (fun c => ts_iterations (fst c)) calls /\
  pt_snr t = match x0 with Some x0 => map (fun c => signal_noise_ratio x0 (get_x_like (fst c) x0)) calls | None => [] end.
Proof. intros H. destruct (track_all_gen calls (progress_tracker x0 every) H) as (A & B & C & D & _). auto. Qed.
Print Assumptions C76_records.
Example C76_records_ex : forall c, In c [(Tracked None [] (Some [1; 2]) None (Some [0; 1]) 0, true); (Tracked (Some [1]) [1%nat] None (Some 4) None 1, false)] -> has_residual (fst c).
Proof. intros c [<-|[<-|[]]]; cbn; [discriminate|lra]. Qed.

Lemma sg_notin idx : forall x j, ~ In j idx -> scatter_get idx x j = 0.
Proof.
  induction idx as [|i idx IH]; intros x j H; [reflexivity|]. destruct x as [|a x]; [reflexivity|]. cbn.
  destruct (Nat.eqb_spec i j) as [E|_]; [exfalso; apply H; now left|]. apply IH. intros Q. apply H. now right.
Qed.
Lemma sg_energy n idx : forall x, NoDup idx -> (forall i, In i idx -> (i < n)%nat) -> length idx = length x ->
  rsum n (fun j => scatter_get idx x j * scatter_get idx x j) = rdot x x.
Proof.
  induction idx as [|i idx IH]; intros [|a x] Hn Hi Hl; try discriminate.
  - cbn [scatter_get]. rewrite rsum_0'; [reflexivity|]. intros; ring.
  - inversion Hn as [|? ? Hni Hn']; subst. cbn [rdot]. rewrite <- (IH x Hn'); [|intros; apply Hi; now right|now injection Hl].
    rewrite (@rsum_ext n _ (fun j => (if (i =? j)%nat then a * a else 0) + scatter_get idx x j * scatter_get idx x j)).
    + rewrite rsum_add. f_equal. rewrite (rsum_single (k := i)); [now rewrite Nat.eqb_refl|apply Hi; now left|]. intros j _ Hj. destruct (Nat.eqb_spec i j); [congruence|reflexivity].
    + intros j _. cbn [scatter_get]. destruct (Nat.eqb_spec i j) as [->|_]; [rewrite (sg_notin idx x j Hni); ring|ring].
Qed.
(** The recorded norm of the solution is that of the signal the state stands for:
    of x, or of the sparse signal with values x_I at distinct positions I. *)
Theorem C76_x_norm s x0 : (forall v, ts_x_I s = Some v -> NoDup (ts_I s) /\ (forall i, In i (ts_I s) -> (i < length x0)%nat) /\ length (ts_I s) = length v /\
    (ts_x s = None \/ ts_x s = Some (build_sparse_signal (length x0) (ts_I s) v))) ->
  get_x_norm s = nrm (get_x_like s x0).
Proof.
  intros H. unfold get_x_norm, get_x_like. destruct (ts_x_I s) as [v|].
  - destruct (H v eq_refl) as (H1 & H2 & H3 & H4).
    assert (E : nrm v = nrm (build_sparse_signal (length x0) (ts_I s) v)).
    { unfold nrm. f_equal. rewrite <- (sg_energy (length x0) (ts_I s) v H1 H2 H3). unfold build_sparse_signal, scatter.
      rewrite (rdot_sum (n := length x0)) by (rewrite tab_length; auto). apply rsum_ext. intros j Hj. now rewrite nth_tab. }
    destruct H4 as [-> | ->]; exact E.
  - destruct (ts_x s); [reflexivity|]. symmetry. apply nrm_rzero.
Qed.
Print Assumptions C76_x_norm.
Example C76_x_norm_ex : forall v, ts_x_I (Tracked (Some [3; 4]) [2; 0]%nat None (Some 4) None 1) = Some v -> NoDup [2; 0]%nat /\ (forall i, In i [2; 0]%nat -> (i < length [0; 0; 1])%nat) /\ length [2; 0]%nat = length v.
Proof. intros v E. injection E as <-. split; [repeat constructor; cbn; intuition discriminate|]. split; [intros i [<-|[<-|[]]]; cbn; lia|reflexivity]. Qed.

Lemma ln10 : 0 < ln 10.
Proof. rewrite <- ln_1. apply ln_increasing; lra. Qed.
Lemma pow10 a : 0 < a -> Rpower 10 (10 * log10 a / 10) = a.
Proof.
  intros H. unfold log10, Rpower. replace (10 * (ln a / ln 10) / 10 * ln 10) with (ln a) by (field; pose proof ln10; lra). now apply exp_ln.
Qed.
Lemma energy_pos (x : vec) : nrm x <> 0 -> 0 < nrm x ^ 2.
Proof. intros H. pose proof (nrm_pos x). apply pow_lt. lra. Qed.
Lemma energy_abs (x : vec) : Rabs (rdot x x) = nrm x ^ 2.
Proof. rewrite Rabs_right by (apply Rle_ge, rdot_pos). rewrite <- nrm_sq. ring. Qed.
(** The ratio is 10 log10 (|x0|^2 / |x0 - x|^2) when both are nonzero; an exact
    recovery of a nonzero signal is given a finite ratio. *)
Theorem C76_snr x0 x : nrm x0 <> 0 ->
  (nrm (rsub x0 x) <> 0 -> Rpower 10 (signal_noise_ratio x0 x / 10) = nrm x0 ^ 2 / nrm (rsub x0 x) ^ 2) /\
  (nrm (rsub x0 x) = 0 -> Rpower 10 (signal_noise_ratio x0 x / 10) = nrm x0 ^ 2 * 2 ^ 52).
Proof.
  intros H0. pose proof (energy_pos x0 H0) as P0. unfold signal_noise_ratio. rewrite !energy_abs. cbv zeta.
  destruct (Reqb_spec (nrm x0 ^ 2) 0) as [E|_]; [lra|]. split; intros H1.
  - pose proof (energy_pos _ H1) as P1. destruct (Reqb_spec (nrm (rsub x0 x) ^ 2) 0) as [E|_]; [lra|]. apply pow10. now apply Rdiv_lt_0_compat.
  - destruct (Reqb_spec (nrm (rsub x0 x) ^ 2) 0) as [_|E]; [|exfalso; apply E; rewrite H1; ring].
    assert (Pe : 0 < eps) by (unfold eps; apply Rinv_0_lt_compat, pow_lt; lra). rewrite pow10 by now apply Rdiv_lt_0_compat.
    unfold eps. field.
Qed.
Print Assumptions C76_snr.
(** of two inexact recoveries the better one has the larger ratio *)
Theorem C76_snr_order x0 x x' : nrm x0 <> 0 -> 0 < nrm (rsub x0 x') < nrm (rsub x0 x) ->
  signal_noise_ratio x0 x < signal_noise_ratio x0 x'.
Proof.
  intros H0 [H1 H2]. pose proof (energy_pos x0 H0) as P0. unfold signal_noise_ratio. rewrite !energy_abs. cbv zeta.
  assert (P1 : 0 < nrm (rsub x0 x') ^ 2) by (apply pow_lt; auto). assert (P2 : nrm (rsub x0 x') ^ 2 < nrm (rsub x0 x) ^ 2) by nra.
  destruct (Reqb_spec (nrm x0 ^ 2) 0) as [E|_]; [lra|]. destruct (Reqb_spec (nrm (rsub x0 x) ^ 2) 0) as [E|_]; [lra|]. destruct (Reqb_spec (nrm (rsub x0 x') ^ 2) 0) as [E|_]; [lra|].
  apply Rmult_lt_compat_l; [lra|]. unfold log10. apply Rmult_lt_compat_r; [apply Rinv_0_lt_compat, ln10|]. apply ln_increasing; [apply Rdiv_lt_0_compat; lra|].
  apply Rmult_lt_compat_l; [auto|]. apply Rinv_lt_contravar; [apply Rmult_lt_0_compat; lra|auto].
Qed.
Print Assumptions C76_snr_order.
Example C76_snr_order_ex : nrm [1] <> 0 /\ 0 < nrm (rsub [1] [1 / 2]) < nrm (rsub [1] [0]).
Proof.
  assert (N : forall a, 0 <= a -> nrm [a] = a) by (intros a Ha; unfold nrm; cbn; replace (a * a + 0) with (a * a) by ring; now apply sqrt_square).
  cbn [rsub zipw]. replace (1 - 1 / 2) with (1 / 2) by field. rewrite !N by lra. lra.
Qed.
(** but an exact recovery does not get the largest one *)
Theorem C76_snr_exact_refuted : exists x0 x, nrm (rsub x0 x) <> 0 /\ signal_noise_ratio x0 x0 < signal_noise_ratio x0 x.
Proof.
  set (d := / 2 ^ 27). assert (Pd : 0 < d) by (unfold d; apply Rinv_0_lt_compat, pow_lt; lra).
  assert (N : forall a, nrm [a] = Rabs a) by (intros a; unfold nrm; cbn; replace (a * a + 0) with (Rsqr a) by (unfold Rsqr; ring); apply sqrt_Rsqr_abs).
  assert (Nd : nrm (rsub [1] [1 - d]) = d) by (cbn [rsub zipw]; rewrite N; replace (1 - (1 - d)) with d by ring; apply Rabs_right; lra).
  assert (N0 : nrm (rsub [1] [1]) = 0) by (cbn [rsub zipw]; rewrite N; replace (1 - 1) with 0 by ring; apply Rabs_R0).
  exists [1], [1 - d]. split; [lra|]. unfold signal_noise_ratio. rewrite !energy_abs. cbv zeta. rewrite Nd, N0. rewrite (N 1), Rabs_R1.
  destruct (Reqb_spec (1 ^ 2) 0) as [E|_]; [lra|]. destruct (Reqb_spec (0 ^ 2) 0) as [_|E]; [|exfalso; apply E; ring]. destruct (Reqb_spec (d ^ 2) 0) as [E|_]; [assert (0 < d ^ 2) by (apply pow_lt; auto); lra|].
  apply Rmult_lt_compat_l; [lra|]. unfold log10. apply Rmult_lt_compat_r; [apply Rinv_0_lt_compat, ln10|].
  assert (Pe : 0 < eps) by (unfold eps; apply Rinv_0_lt_compat, pow_lt; lra). assert (Pd2 : 0 < d ^ 2) by (apply pow_lt; auto).
  apply ln_increasing; [apply Rdiv_lt_0_compat; lra|]. apply Rmult_lt_compat_l; [lra|]. apply Rinv_lt_contravar; [now apply Rmult_lt_0_compat|].
  unfold d, eps. rewrite <- Rinv_pow by (apply pow_nonzero; lra). rewrite <- pow_mult. apply Rinv_lt_contravar; [apply Rmult_lt_0_compat; apply pow_lt; lra|]. apply Rlt_pow; [lra|]. cbn. lia.
Qed.
Print Assumptions C76_snr_exact_refuted.

(** A status line is printed at every multiple of [every] and at the end, and the
    closing line exactly at the end; nothing is raised. *)
Theorem C76_prints t s more : has_residual s -> (0 < pt_every t)%nat ->
  exists lines, snd (track t s more) = Some lines /\
    ((exists x r snr, In (Status (ts_iterations s) x r snr) lines /\ x = get_x_norm s /\ r = residual_norm s) <-> (exists q, ts_iterations s = q * pt_every t)%nat \/ more = false) /\
    (In (Converged (ts_iterations s)) lines <-> more = false).
Proof.
  intros H He. unfold track. rewrite (r_norm_ok s H). cbv zeta. destruct (Nat.eqb_spec (pt_every t) 0) as [E|_]; [lia|].
  assert (M : (ts_iterations s mod pt_every t =? 0)%nat = true <-> exists q, (ts_iterations s = q * pt_every t)%nat).
  { rewrite Nat.eqb_eq, Nat.mod_divide by lia. split; intros [q Hq]; exists q; lia. }
  destruct (ts_iterations s mod pt_every t =? 0)%nat eqn:Em; destruct more; cbn [orb negb snd].
  - eexists. split; [reflexivity|]. split; split.
    + intros _. left. now apply M.
    + intros _. do 3 eexists. split; [now left|]. auto.
    + intros [Q|[]]. discriminate.
    + discriminate.
  - eexists. split; [reflexivity|]. split; split.
    + intros _. now right.
    + intros _. do 3 eexists. split; [now left|]. auto.
    + auto.
    + intros _. right. now left.
  - eexists. split; [reflexivity|]. split; split.
    + intros (x & r & q & [] & _).
    + intros [Q|Q]; [apply M in Q|]; discriminate.
    + intros [].
    + discriminate.
  - eexists. split; [reflexivity|]. split; split.
    + intros _. now right.
    + intros _. do 3 eexists. split; [now left|]. auto.
    + auto.
    + intros _. right. now left.
Qed.
Print Assumptions C76_prints.
(** a state without a residual is recorded, but printing it raises *)
Theorem C76_no_residual_refuted : exists t s, (0 < pt_every t)%nat /\ snd (track t s false) = None /\ length (pt_r_norms (fst (track t s false))) = 1%nat.
Proof. exists (progress_tracker None 1), (Tracked None [] (Some [1]) None None 0). cbn. auto. Qed.
Print Assumptions C76_no_residual_refuted.
