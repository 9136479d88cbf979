From Coq Require Import List Arith Bool Lia Reals Lra Permutation.
From Verif Require Import Scalar Vec RVec Loop LoopLemmas OptModel OptProofs OptProofs2 SortedL1Model SelModel SelSpec SelProofs SolverSpec SlsModel PursuitModel PursuitProofs4 PursuitLemmas2 CxSpec CxProofs CxSpglModel CxSpglProofs CxPursuitModel CxPursuitSpec CxPursuitProofs CxPursuitProofs2 CxMatPursuitModel CxMatPursuitSpec.
Import ListNotations.
Set Implicit Arguments.
Local Open Scope R_scope.

Lemma sumsq_fold (r : cvec) : sumsq r = fold_right (fun a t => Cadd (Cmul a a) t) (0, 0) r.
Proof. unfold sumsq. induction r as [|a r IH]; [reflexivity|]. cbn [fold_right]. rewrite <- IH. reflexivity. Qed.
Lemma mcorr_len Phi r : length (mcorr Phi r) = length Phi. Proof. apply map_length. Qed.
Lemma mcorr_nth Phi r i : (i < length Phi)%nat -> nth i (mcorr Phi r) (0, 0) = dotu (nth i Phi []) r.
Proof. intros H. unfold mcorr. now apply (@nth_map_lt cvec Cx (fun a => dotu a r) Phi i [] (0, 0)). Qed.
Lemma dotu_real (a r : cvec) : Forall (fun z : Cx => snd z = 0) a -> (dotu a r : Cx) = inner a r.
Proof.
  intros H. revert r. induction H as [|z a Hz H IH]; intros [|w r]; try reflexivity.
  change (Cadd (Cmul z w) (@dotu Cs a r : Cx) = Cadd (Cmul (Cconj z) w) (@inner Cs a r : Cx)). rewrite IH. f_equal. f_equal. destruct z as [p q]. cbn in Hz. subst. unfold Cconj. cbn. now rewrite Ropp_0.
Qed.
Lemma Cgtb_false a b : Cgtb a b = false -> fst a < fst b \/ fst a = fst b /\ snd a <= snd b.
Proof.
  unfold Cgtb. destruct (Rltb_spec (fst b) (fst a)) as [L|L]; [discriminate|]. cbn [orb].
  destruct (Reqb_spec (fst a) (fst b)) as [E|E]; cbn [andb].
  - destruct (Rltb_spec (snd b) (snd a)) as [L2|L2]; [discriminate|]. intros _. right. split; [exact E|lra].
  - intros _. left. lra.
Qed.

Section MP.
  Variables (m : nat) (Phi : list cvec) (K : nat) (y : cvec).
  Hypothesis HP : has_rows m Phi.
  Hypothesis HK : (K <= length Phi)%nat.
  Hypothesis Ly : length y = m.
  Notation in_range J := (forall i, In i J -> (i < length Phi)%nat).
  Lemma mcols_len J : in_range J -> forall c, In c (mcols Phi J) -> length c = m.
  Proof. intros H c Hc. apply in_map_iff in Hc as (i & <- & Hi). apply HP, nth_In. auto. Qed.
  Lemma mmake_ok J x it : length J = K -> in_range J -> length x = K -> mconsistent m Phi y K (ms_make Phi y J x it).
  Proof.
    intros H1 H2 H3. unfold mconsistent, ms_make. cbn [ms_I ms_x ms_r ms_rn]. rewrite <- sumsq_fold. unfold msynth, combine_columns, mcols. rewrite Ly. repeat split; auto.
  Qed.
  Lemma mcons_len s : mconsistent m Phi y K s -> length (ms_r s) = m.
  Proof. intros (C1 & C2 & C3 & C4 & C5). rewrite C4. apply vsub_length; auto. apply clc_len. now apply mcols_len. Qed.
  Lemma mh_in r k : in_range (clargest_indices (mcorr Phi r) k).
  Proof. intros i Hi. apply cli_lt in Hi. now rewrite mcorr_len in Hi. Qed.
  Lemma mhz_in r J k : in_range (clargest_indices (czero_at (mcorr Phi r) J) k).
  Proof. intros i Hi. apply cli_lt in Hi. now rewrite czero_at_len, mcorr_len in Hi. Qed.
  Section L.
  Variable lstsq : list cvec -> cvec -> cvec.
  Hypothesis HLS : cleast_squares_solver lstsq.
  Lemma mls_len J : in_range J -> length (lstsq (mcols Phi J) y) = length J.
  Proof. intros H. destruct (HLS (mcols Phi J) y Ly (mcols_len J H)) as [H1 _]. rewrite H1. apply map_length. Qed.
  Lemma msp_make_ok J it : length J = K -> in_range J ->
    mconsistent m Phi y K (ms_make Phi y J (lstsq (mcols Phi J) y) it) /\ best_on_support m Phi y K (ms_make Phi y J (lstsq (mcols Phi J) y) it).
  Proof.
    intros LJ RJ. split; [apply mmake_ok; auto; rewrite mls_len; auto|].
    intros z Lz. unfold ms_make. cbn [ms_r ms_I]. unfold msynth. rewrite Ly.
    destruct (HLS (mcols Phi J) y Ly (mcols_len J RJ)) as [_ H1]. apply H1. unfold mcols. rewrite map_length, Lz. now symmetry.
  Qed.
  Lemma msp_init_ok : mconsistent m Phi y K (msp_init lstsq Phi y K) /\ best_on_support m Phi y K (msp_init lstsq Phi y K).
  Proof. unfold msp_init. apply msp_make_ok; [rewrite cli_len, mcorr_len; lia|]. apply mh_in. Qed.
  Lemma msp_body_ok s s' : mconsistent m Phi y K s -> msp_body lstsq Phi y K s = Some s' ->
    (mconsistent m Phi y K s' /\ best_on_support m Phi y K s') /\ ms_it s' = S (ms_it s).
  Proof.
    intros C B. unfold msp_body in B. injection B as <-. split; [|auto]. destruct C as (C1 & C2 & C3 & C4 & C5).
    set (J3 := ms_I s ++ _). assert (R3 : in_range J3).
    { intros i Hi. apply in_app_or in Hi as [Hi|Hi]; auto. now apply mhz_in in Hi. }
    assert (Lx : length (lstsq (mcols Phi J3) y) = length J3) by (now apply mls_len).
    assert (L3 : (K <= length J3)%nat) by (unfold J3; rewrite app_length; lia).
    apply msp_make_ok.
    - rewrite pick_len, cli_len. rewrite Lx. lia.
    - intros i Hi. apply R3. eapply pick_in; [|exact Hi]. intros a Ha. apply cli_lt in Ha. rewrite <- Lx. exact Ha.
  Qed.
  Lemma msp_reach max_iters rtol k s : reaches (msp_cond y max_iters rtol) (msp_body lstsq Phi y K) (msp_init lstsq Phi y K) k s ->
    (mconsistent m Phi y K s /\ best_on_support m Phi y K s) /\ ms_it s = S k /\ (S k <= Nat.max 1 max_iters)%nat.
  Proof.
    induction 1 as [|k s s' H (IH1 & IH2 & IH3) C B]; [split; [apply msp_init_ok|split; [reflexivity|lia]]|].
    destruct IH1 as [I1 I2]. destruct (msp_body_ok I1 B) as [B1 B2]. unfold msp_cond in C. apply andb_prop in C as [_ C]. apply Nat.ltb_lt in C. split; [exact B1|]. split; lia.
  Qed.
  Lemma msp_done max_iters rtol fuel s : msp lstsq Phi y K max_iters rtol fuel = Done s ->
    mconsistent m Phi y K s /\ best_on_support m Phi y K s /\ (1 <= ms_it s <= Nat.max 1 max_iters)%nat /\
    ((max_iters <= ms_it s)%nat \/ Cgtb (ms_rn s) (Cmul (sumsq y) (rtol ^ 2, 0)) = false).
  Proof.
    intros H. apply while_done in H as (k & _ & Rk & Cd). destruct (msp_reach Rk) as ((R1 & R2) & R3 & R4).
    split; [exact R1|]. split; [exact R2|]. split; [lia|]. unfold msp_cond in Cd. apply andb_false_iff in Cd as [Cd|Cd]; [now right|left]. now apply Nat.ltb_ge.
  Qed.
  Lemma msp_total max_iters rtol fuel : (max_iters <= fuel)%nat -> exists s, msp lstsq Phi y K max_iters rtol fuel = Done s.
  Proof.
    intros HF. apply while_total.
    - intros k s R C. discriminate.
    - intros k s R C. destruct (msp_reach R) as (_ & R2 & _). unfold msp_cond in C. apply andb_prop in C as [_ C]. apply Nat.ltb_lt in C. lia.
  Qed.
  End L.
  Lemma mbest_orth s : mconsistent m Phi y K s -> best_on_support m Phi y K s ->
    forall i, In i (ms_I s) -> (inner (nth i Phi []) (ms_r s) : Cx) = (0, 0).
  Proof.
    intros C H i Hi. pose proof (mcons_len C) as Lr. destruct C as (C1 & C2 & C3 & C4 & C5).
    apply orth_of_min with m; auto; [apply HP, nth_In; auto|]. intros c.
    destruct (@clc_bump m (nth i Phi []) c (mcols Phi (ms_I s)) (mcols_len _ C2) (in_map (fun i => nth i Phi []) _ _ Hi) (ms_x s)) as (z & Lz & Ez); [unfold mcols; rewrite map_length; etransitivity; [exact C3|now symmetry]|].
    assert (LzK : length z = K) by (unfold mcols in Lz; rewrite map_length in Lz; etransitivity; [exact Lz|exact C1]).
    apply Rle_trans with (1 := H z LzK). right. f_equal. unfold combine_columns, mcols in *. rewrite Ez, C4.
    generalize (@Vec.lincomb Cs m (ms_x s) (map (fun i => nth i Phi []) (ms_I s))) (vscale c (nth i Phi [])). clear.
    induction y as [|p l IH]; intros [|q l0] [|r l1]; try reflexivity.
    change ((ssub p (sadd q r) : Cs) :: vsub l (vadd l0 l1) = (ssub (ssub p q) r : Cs) :: vsub (vsub l l0) l1).
    rewrite IH. f_equal. cbn. unfold Cadd, Csub. cbn. apply (f_equal2 pair); ring.
  Qed.

End MP.

(** *** omp *)
Lemma argmax_from_lt : forall (l : vec) k i x, (i < k + length l)%nat -> (argmax_from k i x l < k + length l)%nat.
Proof.
  induction l as [|a l IH]; intros k i x H; cbn [argmax_from]; [exact H|]. cbn [length] in *.
  destruct (Rltb x a); replace (k + S (length l))%nat with (S k + length l)%nat by lia; apply IH; lia.
Qed.
Lemma cmax_lt h : h <> [] -> (cabs_max_idx h < length h)%nat.
Proof.
  destruct h as [|a h]; [congruence|]. intros _. unfold cabs_max_idx, argmax. cbn [map].
  pose proof (@argmax_from_lt (map cabs h) 1 0 (cabs a)) as Q. rewrite map_length in Q. apply Q. lia.
Qed.
Lemma mcorr_ne Phi r : Phi <> [] -> mcorr Phi r <> []. Proof. destruct Phi; [congruence|discriminate]. Qed.
Lemma momp_ok m Phi y solve_L spd csqrt : has_rows m Phi -> Phi <> [] -> length y = m -> (forall L b, length (spd L b) = length b) ->
  forall k, let s := mo_sol (Nat.iter k (momp_step solve_L spd csqrt Phi y) (momp_init Phi y)) in
    mconsistent m Phi y (S k) s /\ ms_it s = S k.
Proof.
  intros HP HN Ly Hspd. induction k as [|k [IH1 IH2]]; cbn [Nat.iter nat_rect].
  - unfold momp_init. cbn [mo_sol]. split; [|reflexivity]. apply mmake_ok; auto. intros i [<-|[]]. rewrite <- (mcorr_len Phi y). apply cmax_lt. now apply mcorr_ne.
  - set (s := Nat.iter k _ _) in *. change (Nat.iter (S k) (momp_step solve_L spd csqrt Phi y) (momp_init Phi y)) with (momp_step solve_L spd csqrt Phi y s). unfold momp_step. cbn [mo_sol]. split; [|exact (f_equal S IH2)].
    destruct IH1 as (C1 & C2 & C3 & C4 & C5). apply mmake_ok; auto.
    + rewrite app_length. cbn [length]. rewrite Nat.add_1_r. exact (f_equal S C1).
    + intros i Hi. apply in_app_or in Hi as [Hi|[<-|[]]]; auto. rewrite <- (mcorr_len Phi (ms_r (mo_sol s))). apply cmax_lt. now apply mcorr_ne.
    + rewrite Hspd, cgather_len, app_length. cbn [length]. rewrite Nat.add_1_r. exact (f_equal S C1).
Qed.
