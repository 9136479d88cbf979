(** C101: the quick look at a solver result; and C71: results of the solvers. *)
From Coq Require Import List Arith Bool Reals Lia Lra.
From Verif Require Import Vec RVec RMat Loop SolverSpec OptModel SortedL1Model SelModel SelSpec SelProofs PursuitModel PursuitSpec PursuitProofs PursuitProofs5 PerfModel PerfProofs AnalyzeModel AnalyzeSpec AnalyzeProofs.
Import ListNotations.
Local Open Scope R_scope.

(** The lines that are printed: the norms of the measurements always, those of
    the coefficients when they are known, those of the signal when it is known
    and either both operators are non-trivial or the coefficients are unknown. *)
Theorem C101_lines : forall p x perc, let a := analyze_solution p x perc in
  an_b a = (nrm (pv_b p), nrm (pv_times p x)) /\
  (forall u, an_x a = Some u <-> exists x0, pv_x p = Some x0 /\ u = (nrm x0, nrm x)) /\
  (forall u, an_y a = Some u <-> exists y0, pv_y p = Some y0 /\ (pv_both p = true \/ pv_x p = None) /\ u = (nrm y0, nrm (pv_reconstruct p x))) /\
  (an_overlap a <> None <-> pv_x p <> None).
Proof.
  intros p x perc a. unfold a, analyze_solution; cbn. split; [reflexivity|].
  destruct (pv_x p) as [x0|], (pv_y p) as [y0|], (pv_both p); cbn;
    (split; [intros u; split; [intros [= <-]; eauto|intros (z & [= <-] & ->); reflexivity] || (intros u; split; [discriminate|intros (z & [=] & _)])|];
     split; [|split; congruence]; intros u; split;
     [ first [discriminate | intros [= <-]; eauto 6] | intros (z & E & O & ->); try discriminate E; first [now injection E as <- | destruct O; discriminate ] ]).
Qed.
Print Assumptions C101_lines.

(** The reported sparsity is the least number of positions, at least one, that
    hold the given percentage of the energy: the chosen positions hold it, and
    no smaller nonempty set of positions does. *)
Theorem C101_sparsity : forall x0 x perc, x0 <> [] -> x <> [] -> 0 <= perc <= 100 ->
  let o := overlap_of x0 x perc in
  (forall v k, (v = x0 /\ k = ov_k1 o) \/ (v = x /\ k = ov_k2 o) ->
     (1 <= k <= length v)%nat /\
     (exists J, positions v J /\ length J = k /\ perc / 100 * nrm2 v <= energy_at v J) /\
     (forall J, positions v J -> J <> [] -> (length J < k)%nat -> energy_at v J < perc / 100 * nrm2 v)).
Proof.
  intros x0 x perc H0 H1 Hp o v k Hv.
  assert (Hk : v <> [] /\ k = energy_count v perc) by (destruct Hv as [[-> ->]|[-> ->]]; auto). destruct Hk as [Hn ->].
  destruct (count_spec v perc Hn Hp) as (A & B & C). split; [exact A|]. split.
  - exists (largest_indices v (energy_count v perc)). destruct (@largest_top v (energy_count v perc)) as (D & E & F & _); [lia|].
    rewrite map_length in F. split; [now split|]. split; [exact E|]. rewrite <- top_energy_eq by lia. exact B.
  - intros J PJ NJ LJ. assert (1 <= length J)%nat by (destruct J; [easy|cbn; lia]).
    eapply Rle_lt_trans; [apply (energy_max v (length J) J); auto; lia|]. apply C. lia.
Qed.
Print Assumptions C101_sparsity.

(** The overlap counts the positions that dominate both vectors; the ratio lies
    in [0, 1] and is 1 exactly when the dominating positions are the same. *)
Theorem C101_ratio : forall x0 x perc, x0 <> [] -> x <> [] -> 0 <= perc <= 100 ->
  let o := overlap_of x0 x perc in
  exists S1 S2, top_selection (map Rabs x0) (ov_k1 o) S1 /\ top_selection (map Rabs x) (ov_k2 o) S2 /\
    (exists J, NoDup J /\ length J = ov_correct o /\ forall i, In i J <-> In i S1 /\ In i S2) /\
    ov_ratio o * INR (Nat.max (ov_k1 o) (ov_k2 o)) = INR (ov_correct o) /\
    0 <= ov_ratio o <= 1 /\ (ov_ratio o = 1 <-> forall i, In i S1 <-> In i S2).
Proof.
  intros x0 x perc H0 H1 Hp o.
  destruct (count_spec x0 perc H0 Hp) as ((A & B) & _). destruct (count_spec x perc H1 Hp) as ((C & D) & _).
  exists (largest_indices x0 (energy_count x0 perc)), (largest_indices x (energy_count x perc)).
  split; [now apply largest_top|]. split; [now apply largest_top|]. split.
  - eexists. split; [|split; [reflexivity|]].
    + apply NoDup_filter. now apply largest_top.
    + intros i. apply intersect_in.
  - split.
    + unfold o; cbn. pose proof (max_pos x0 x perc H0 Hp). field. lra.
    + split; [exact (ratio_range x0 x perc H0 Hp)|exact (ratio_one x0 x perc H0 H1 Hp)].
Qed.
Print Assumptions C101_ratio.

(** An exact reconstruction gets ratio 1 and equal norms; so does, for the
    ratio, every multiple of the original: the ratio does not see a wrong
    scale or sign. *)
Theorem C101_exact : forall p x0 c perc, pv_x p = Some x0 -> pv_b p = pv_times p x0 -> x0 <> [] -> 0 <= perc <= 100 -> c <> 0 ->
  fst (an_b (analyze_solution p x0 perc)) = snd (an_b (analyze_solution p x0 perc)) /\
  an_x (analyze_solution p x0 perc) = Some (nrm x0, nrm x0) /\
  exists o, an_overlap (analyze_solution p (rscale c x0) perc) = Some o /\
    ov_ratio o = 1 /\ ov_k1 o = ov_k2 o /\ ov_correct o = ov_k1 o.
Proof.
  intros p x0 c perc E Eb H0 Hp Hc. cbn. rewrite E, Eb. split; [reflexivity|]. split; [reflexivity|].
  eexists. split; [reflexivity|].
  assert (H1 : rscale c x0 <> []) by (destruct x0; [easy|discriminate]).
  split; [|cbn; rewrite count_scale by auto; split; [reflexivity|]].
  - apply (ratio_one x0 (rscale c x0) perc H0 H1 Hp). intros i. now rewrite count_scale, largest_scale.
  - rewrite largest_scale by auto.
    pose proof (correct_all x0 x0 perc H0 H0 Hp) as [_ Q]. rewrite Q by reflexivity. apply Nat.max_id.
Qed.
Print Assumptions C101_exact.

(** A ratio of 1 does not mean that anything was recovered: the zero
    reconstruction is credited with one dominating position, which can be the
    right one. *)
Theorem C101_zero_refuted : exists x0 x, length x = length x0 /\ (exists i, x0@i <> 0) /\ (forall i, x@i = 0) /\
  ov_ratio (overlap_of x0 x (999 / 10)) = 1.
Proof.
  exists [0; 1], [0; 0]. split; [reflexivity|]. split; [exists 1%nat; cbn; lra|].
  split; [intros [|[|[|i]]]; reflexivity|].
  assert (E1 : energy_count [0; 1] (999 / 10) = 1%nat).
  { unfold energy_count. cbn [length seq find]. 
    replace (Rleb (999 / 10 / 100 * nrm2 [0; 1]) (top_energy [0; 1] 1)) with true; [reflexivity|].
    symmetry. apply Rleb_true. unfold top_energy, nrm2, rdot. cbn [map rsort fold_right rinsert].
    replace (Rleb (0 * 0) (1 * 1)) with true by (symmetry; apply Rleb_true; lra). cbn. lra. }
  assert (E2 : energy_count [0; 0] (999 / 10) = 1%nat).
  { unfold energy_count. cbn [length seq find].
    replace (Rleb (999 / 10 / 100 * nrm2 [0; 0]) (top_energy [0; 0] 1)) with true; [reflexivity|].
    symmetry. apply Rleb_true. unfold top_energy, nrm2, rdot. cbn [map rsort fold_right rinsert].
    replace (Rleb (0 * 0) (0 * 0)) with true by (symmetry; apply Rleb_true; lra). cbn. lra. }
  assert (S1 : largest_indices [0; 1] 1 = [1%nat]).
  { destruct (@largest_top [0; 1] 1) as (A & B & C & D); [cbn; lia|].
    destruct (largest_indices [0; 1] 1) as [|a [|b l]]; try discriminate B.
    destruct a as [|[|a]]; [|reflexivity|].
    - exfalso. assert (Q := D 0%nat 1%nat (or_introl eq_refl)). cbn in Q. rewrite Rabs_R0, Rabs_R1 in Q.
      assert (1 <= 0); [apply Q; [lia|intros [?|[]]; discriminate]|lra].
    - exfalso. assert (Q := C (S (S a)) (or_introl eq_refl)). cbn in Q. lia. }
  assert (S2 : largest_indices [0; 0] 1 = [1%nat]).
  { assert (Z : Rleb 0 0 = true) by (apply Rleb_true; lra).
    unfold largest_indices. cbn [map]. rewrite !Rabs_R0. unfold argsort. cbn [length seq fold_right ins_idx nth].
    rewrite Z. reflexivity. }
  unfold overlap_of. rewrite E1, E2, S1, S2. cbn. field.
Qed.
Print Assumptions C101_zero_refuted.

(** Two of three positions found: original (3, 0, 4, 0), reconstruction
    (3, 0, 4, 5), all of the energy asked for. *)
Example C101_nonvacuous : [3; 0; 4; 0] <> [] /\ 0 <= 999 / 10 <= 100 /\
  positions [3; 0; 4; 0] [0%nat; 2%nat] /\ energy_at [3; 0; 4; 0] [0%nat; 2%nat] = nrm2 [3; 0; 4; 0].
Proof.
  split; [discriminate|]. split; [lra|]. split.
  - split; [repeat constructor; cbn; intuition lia|]. cbn. intros i [<-|[<-|[]]]; lia.
  - unfold energy_at, isum, nrm2, rdot. cbn. ring.
Qed.

(** C71: a pursuit result stands for the vector with its values at its indices
    and zero elsewhere, and is judged like this vector. *)
Theorem C71_result : forall n phi y x J x_J, NoDup J -> (forall i, In i J -> (i < n)%nat) -> length x_J = length J ->
  exists x_hat, length x_hat = n /\ (forall a, (a < length J)%nat -> x_hat@(nth a J 0%nat) = x_J@a) /\
    (forall i, ~ In i J -> x_hat@i = 0) /\
    performance_of_result n phi y x (PursuitResult J x_J) = Some (recovery_performance phi y x x_hat).
Proof.
  intros n phi y x J x_J ND HJ L. exists (scatter n J x_J). split; [apply scatter_len|]. split.
  - intros a Ha. assert (Hi : (nth a J 0 < n)%nat) by (apply HJ, nth_In; auto).
    unfold scatter. rewrite nth_tab by auto. clear HJ Hi. revert x_J a L Ha.
    induction ND as [|j J Hj ND IH]; intros x_J a L Ha; [cbn in Ha; lia|].
    destruct x_J as [|v x_J]; [discriminate|]. cbn in L. destruct a as [|a]; cbn.
    + now rewrite Nat.eqb_refl.
    + cbn in Ha. assert (Hin : In (nth a J 0%nat) J) by (apply nth_In; lia).
      destruct (Nat.eqb_spec (nth a J 0%nat) j) as [E|]; [rewrite E in Hin; contradiction|].
      try (destruct (Nat.eqb_spec j (nth a J 0%nat)) as [E|]; [rewrite <- E in Hin; contradiction|]). apply IH; lia.
  - split; [apply supp_scatter|reflexivity].
Qed.
Print Assumptions C71_result.

(** C71: a result that has the solution as its field x (all convex solvers) is
    never judged: the test for the field looks at the values instead of the
    names, and the call raises. *)
Theorem C71_full_result_refuted : forall n phi y x x_hat,
  performance_of_result n phi y x (FullResult x_hat) = None.
Proof. reflexivity. Qed.
Print Assumptions C71_full_result_refuted.
