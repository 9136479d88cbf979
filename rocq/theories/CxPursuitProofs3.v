From Coq Require Import List Arith Bool Lia Reals Lra Permutation.
From Verif Require Import Scalar Vec RVec Loop LoopLemmas OptModel OptProofs OptProofs2 SortedL1Model SelModel SelSpec SelProofs SolverSpec SlsModel PursuitModel PursuitProofs4 PursuitLemmas2 PursuitLemmas3 CxSpec CxProofs CxSpglModel CxSpglProofs CxPursuitModel CxPursuitSpec CxPursuitProofs CxMatPursuitModel CxMatPursuitSpec CxMatPursuitProofs.
Import ListNotations.
Set Implicit Arguments.
Local Open Scope R_scope.

(** *** no column is selected twice *)
Lemma cli_nodup h K : NoDup (clargest_indices h K). Proof. rewrite cli_real. apply li_nodup. Qed.
Lemma append_nodup (u v : list nat) : NoDup u -> NoDup v -> (forall i, In i u -> ~ In i v) -> NoDup (u ++ v).
Proof.
  intros Hu Hv H. induction u as [|a u IH]; auto. inversion Hu; subst. simpl. constructor.
  - intros C. apply in_app_or in C as [C|C]; [contradiction|]. apply (H a); [now left|exact C].
  - apply IH; auto. intros i Hi. apply H. now right.
Qed.
Lemma cabs00 : cabs (0, 0) = 0. Proof. unfold cabs. cbn. rewrite Rmult_0_l, Rplus_0_l. apply sqrt_0. Qed.
Lemma cabs_0inv (z : Cx) : cabs z = 0 -> z = (0, 0).
Proof.
  intros H. destruct z as [a b]. unfold cabs in H. cbn in H. apply sqrt_eq_0 in H; [|nra]. assert (a = 0) by nra. assert (b = 0) by nra. now subst.
Qed.
Lemma cabs_nth (h : cvec) i : (map cabs h)@i = cabs (nth i h (0, 0)).
Proof. rewrite <- cabs00 at 1. apply map_nth. Qed.
Lemma map_czero h J : map cabs (czero_at h J) = zero_at (map cabs h) J.
Proof.
  apply nth_ext with (d := 0) (d' := 0); [rewrite map_length, czero_at_len, zero_at_len, map_length; reflexivity|].
  intros i Hi. rewrite map_length, czero_at_len in Hi. rewrite cabs_nth, zero_at_nth by (now rewrite map_length). unfold czero_at. rewrite nth_tab by exact Hi. unfold mem.
  destruct (existsb (Nat.eqb i) J); [exact cabs00|]. symmetry. apply cabs_nth.
Qed.
Lemma creselect h J k : (k <= length h)%nat ->
  (forall i, In i J -> ~ In i (clargest_indices (czero_at h J) k)) \/
  (forall j, (j < length h)%nat -> ~ In j J -> ~ In j (clargest_indices (czero_at h J) k) -> nth j h (0, 0) = (0, 0)).
Proof.
  intros Hk. rewrite !cli_real, !map_czero. destruct (@reselect (map cabs h) J k) as [H|H]; [now rewrite map_length|now left|right].
  intros j Hj N1 N2. apply cabs_0inv. rewrite <- cabs_nth. apply H; auto. now rewrite map_length.
Qed.

Section Op.
  Variables (m : nat) (D : cdictionary) (y : cvec) (K : nat).
  Hypothesis V : cvalid_dict m D.
  Hypothesis HK : (K <= cd_n D)%nat.
  Hypothesis Ly : length y = m.
  Variable lstsq : list cvec -> cvec -> cvec.
  Hypothesis HLS : cleast_squares_solver lstsq.
  Lemma cmerge_nodup s k : (k <= cd_n D)%nat -> cconsistent m D y K s -> NoDup (cp_I s) ->
    let J := cp_I s ++ clargest_indices (czero_at (cd_trans D (cp_r s)) (cp_I s)) k in
    NoDup (pick J (clargest_indices (lstsq (map (cd_atom D) J) y) K)) \/
    exists T, (length T <= k)%nat /\ forall j, (j < cd_n D)%nat -> ~ In j (cp_I s) -> ~ In j T -> inner (cd_atom D j) (cp_r s) = ((0, 0) : Cx).
  Proof.
    intros Hk C ND J. pose proof (cconsistent_len V Ly C) as Lr. destruct V as (V1 & V2 & V3). pose proof (V2 _ Lr) as Lt.
    destruct (@creselect (cd_trans D (cp_r s)) (cp_I s) k) as [R1|R1]; [now rewrite Lt| |].
    - left. apply pick_nodup; [apply append_nodup; auto; apply cli_nodup|apply cli_nodup|].
      intros a Ha. apply cli_lt in Ha. rewrite <- (@cls_len m D V y Ly lstsq HLS J); [exact Ha|]. intros i Hi. apply in_app_or in Hi as [Hi|Hi]; [now apply C|]. apply cli_lt in Hi. now rewrite czero_at_len, Lt in Hi.
    - right. exists (clargest_indices (czero_at (cd_trans D (cp_r s)) (cp_I s)) k). split; [rewrite cli_len; lia|].
      intros j Hj N1 N2. rewrite <- V3 by auto. apply R1; auto. now rewrite Lt.
  Qed.
End Op.
Section Mat.
  Variables (m : nat) (Phi : list cvec) (y : cvec) (K : nat).
  Hypothesis HP : has_rows m Phi.
  Hypothesis HK : (K <= length Phi)%nat.
  Hypothesis Ly : length y = m.
  Variable lstsq : list cvec -> cvec -> cvec.
  Hypothesis HLS : cleast_squares_solver lstsq.
  Lemma msp_nodup s s' : mconsistent m Phi y K s -> NoDup (ms_I s) -> msp_body lstsq Phi y K s = Some s' ->
    NoDup (ms_I s') \/ exists T, (length T <= K)%nat /\ forall j, (j < length Phi)%nat -> ~ In j (ms_I s) -> ~ In j T -> dotu (nth j Phi []) (ms_r s) = ((0, 0) : Cx).
  Proof.
    intros C ND B. unfold msp_body in B. injection B as <-. unfold ms_make. cbn [ms_I].
    destruct (@creselect (mcorr Phi (ms_r s)) (ms_I s) K) as [R1|R1]; [now rewrite mcorr_len| |].
    - left. apply pick_nodup; [apply append_nodup; auto; apply cli_nodup|apply cli_nodup|].
      intros a Ha. apply cli_lt in Ha. erewrite <- (@mls_len m Phi y HP Ly lstsq HLS); [exact Ha|]. intros i Hi. apply in_app_or in Hi as [Hi|Hi]; [now apply C|]. apply mhz_in in Hi. exact Hi.
    - right. exists (clargest_indices (czero_at (mcorr Phi (ms_r s)) (ms_I s)) K). split; [rewrite cli_len; lia|].
      intros j Hj N1 N2. rewrite <- (mcorr_nth Phi (ms_r s) Hj). apply R1; auto. now rewrite mcorr_len.
  Qed.
End Mat.
