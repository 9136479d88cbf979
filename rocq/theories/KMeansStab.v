(** k-means runs into a fixed point. *)
From Coq Require Import List Arith Bool Lia Reals Lra Psatz.
From Verif Require Import Vec RVec RMat Loop LoopLemmas SelModel SelProofs SolverSpec KMeansModel KMeansSpec KMeansProofs.
Import ListNotations.
Set Implicit Arguments.
Unset Strict Implicit.
Local Open Scope R_scope.

(** *** pigeonhole for assignments *)
Fixpoint all_assign (n k : nat) : list (list nat) :=
  match n with O => [[]] | S n => map (fun p => fst p :: snd p) (list_prod (seq 0 k) (all_assign n k)) end.
Lemma all_assign_len n k : length (all_assign n k) = (k ^ n)%nat.
Proof. induction n; [reflexivity|]. cbn [all_assign]. rewrite map_length, prod_length, seq_length, IHn. reflexivity. Qed.
Lemma all_assign_in k : forall n a, length a = n -> (forall i, (i < n)%nat -> (nth i a 0 < k)%nat) -> In a (all_assign n k).
Proof.
  induction n as [|n IH]; intros [|x a] L H; try discriminate; [now left|]. cbn [all_assign]. apply in_map_iff. exists (x, a). split; [reflexivity|].
  apply in_prod; [apply in_seq; specialize (H 0%nat ltac:(lia)); cbn in H; lia|]. apply IH; [now injection L|]. intros i Hi. apply (H (S i)). lia.
Qed.
Lemma dup_or_nodup (l : list (list nat)) : NoDup l \/ exists i j, (i < j < length l)%nat /\ nth i l [] = nth j l [].
Proof.
  induction l as [|a l [IH|IH]]; [left; constructor| |].
  - destruct (in_dec (list_eq_dec Nat.eq_dec) a l) as [H|H]; [|left; now constructor]. right. apply In_nth with (d := []) in H as (j & Hj & Ej).
    exists 0%nat, (S j). cbn [length nth]. split; [lia|auto].
  - right. destruct IH as (i & j & H & E). exists (S i), (S j). cbn [length nth]. split; [lia|auto].
Qed.
Lemma pigeon (as_ : nat -> list nat) n k : (forall t, length (as_ t) = n /\ forall i, (i < n)%nat -> (nth i (as_ t) 0 < k)%nat) ->
  exists i j, (i < j <= k ^ n)%nat /\ as_ i = as_ j.
Proof.
  intros H. set (l := map as_ (seq 0 (S (k ^ n)))). assert (Ll : length l = S (k ^ n)) by (unfold l; now rewrite map_length, seq_length).
  assert (Ne : forall i, (i < S (k ^ n))%nat -> nth i l [] = as_ i).
  { intros i Hi. unfold l. rewrite (nth_map_lt _ _ _ 0%nat) by now rewrite seq_length. now rewrite seq_nth by auto. }
  destruct (dup_or_nodup l) as [N|(i & j & Hij & E)].
  - exfalso. assert (Hi : incl l (all_assign n k)). { intros a Ha. unfold l in Ha. apply in_map_iff in Ha as (t & <- & _). destruct (H t). now apply all_assign_in. }
    pose proof (NoDup_incl_length N Hi) as Q. rewrite all_assign_len, Ll in Q. lia.
  - exists i, j. rewrite !Ne in E by lia. split; [lia|exact E].
Qed.

Section Stab.
  Variables (n d k : nat) (P : mat).
  Hypothesis HP : shape n d P.
  Hypothesis Hn : (0 < n)%nat.
  Hypothesis Hk : (0 < k)%nat.
  Notation newc := (fun a => find_new_centroids d a P k).
  Notation asg := (fun C => fst (find_assignment P C)).

  (** the cost above that of the means *)
  Lemma centroids_gap a C : assigns P k a -> shape k d C ->
    sq_cost P C a = sq_cost P (newc a) a + rsum n (fun i => rsum d (fun t => ((nth (nth i a 0%nat) (newc a) [])@t - (nth (nth i a 0%nat) C [])@t) * ((nth (nth i a 0%nat) (newc a) [])@t - (nth (nth i a 0%nat) C [])@t))).
  Proof.
    intros [La Ha] HC. pose proof HP as [HP1 HP2]. rewrite HP1 in *. unfold sq_cost. rewrite HP1.
    set (M := find_new_centroids d a P k).
    assert (HR : forall i, (i < n)%nat -> length (nth i P []) = d) by (intros i Hi; apply (shape_row HP Hi)).
    assert (HcM : forall j, (j < k)%nat -> length (nth j M []) = d) by (intros j Hj; now apply (ctr_len HP Hk a)).
    assert (HcC : forall j, (j < k)%nat -> length (nth j C []) = d) by (intros j Hj; apply (shape_row HC Hj)).
    rewrite (rsum_ext (fun i => row_dist P i M (nth i a 0%nat) * row_dist P i M (nth i a 0%nat)) (fun i => rsum d (fun t => ((nth i P [])@t - (nth (nth i a 0%nat) M [])@t) * ((nth i P [])@t - (nth (nth i a 0%nat) M [])@t)))).
    2: intros i Hi; apply (@row_dist_sq n d k P); auto.
    rewrite (rsum_ext (fun i => row_dist P i C (nth i a 0%nat) * row_dist P i C (nth i a 0%nat))
      (fun i => rsum d (fun t => ((nth i P [])@t - (nth (nth i a 0%nat) C [])@t) * ((nth i P [])@t - (nth (nth i a 0%nat) C [])@t)))).
    2: intros i Hi; apply (@row_dist_sq n d k P); auto.
    rewrite (rsum_exchange n d), (rsum_exchange n d), (rsum_exchange n d), <- rsum_add. apply rsum_ext. intros t Ht.
    set (p := fun i => (nth i P [])@t). set (m := fun j => (nth j M [])@t). set (c := fun j => (nth j C [])@t).
    change (rsum n (fun i => (p i - c (nth i a 0%nat)) * (p i - c (nth i a 0%nat))) =
      rsum n (fun i => (p i - m (nth i a 0%nat)) * (p i - m (nth i a 0%nat))) + rsum n (fun i => (m (nth i a 0%nat) - c (nth i a 0%nat)) * (m (nth i a 0%nat) - c (nth i a 0%nat)))).
    rewrite (rsum_ext (fun i => (p i - c (nth i a 0%nat)) * (p i - c (nth i a 0%nat)))
      (fun i => (p i - m (nth i a 0%nat)) * (p i - m (nth i a 0%nat)) +
        ((m (nth i a 0%nat) - c (nth i a 0%nat)) * (m (nth i a 0%nat) - c (nth i a 0%nat)) +
          2 * ((p i - m (nth i a 0%nat)) * (m (nth i a 0%nat) - c (nth i a 0%nat)))))) by (intros; ring).
    rewrite rsum_add, rsum_add, rsum_mul_l.
    assert (Z : rsum n (fun i => (p i - m (nth i a 0%nat)) * (m (nth i a 0%nat) - c (nth i a 0%nat))) = 0).
    { rewrite (rsum_ext _ (fun i => rsum k (fun j => (if Nat.eqb (nth i a 0%nat) j then 1 else 0) * ((p i - m j) * (m j - c j))))).
      2: intros i Hi; now rewrite (@pick_sum k _ (fun j => (p i - m j) * (m j - c j))) by auto.
      rewrite rsum_exchange. apply rsum_0'. intros j Hj.
      rewrite (rsum_ext _ (fun i => (if Nat.eqb (nth i a 0%nat) j then 1 else 0) * (p i - m j) * (m j - c j))) by (intros; ring).
      rewrite rsum_mul_r. pose proof (ctr_balance HP Hn Hk a La Hj Ht) as B. unfold ctr in B. fold M in B. fold (m j) in B.
      unfold p. rewrite B. ring. }
    rewrite Z. ring.
  Qed.
  (** [C'] is [C] with some rows replaced by the origin *)
  Definition cleared (C C' : mat) : Prop := forall j, (j < k)%nat -> nth j C' [] = nth j C [] \/ nth j C' [] = rzero d.
  Lemma cleared_trans A B C : cleared A B -> cleared B C -> cleared A C.
  Proof. intros H1 H2 j Hj. destruct (H2 j Hj) as [E|E]; auto. rewrite E. auto. Qed.
  Lemma cleared_antisym A B : shape k d A -> shape k d B -> cleared A B -> cleared B A -> A = B.
  Proof.
    intros [LA _] [LB _] H1 H2. apply nth_ext with (d := []) (d' := []); [congruence|]. intros j Hj. rewrite LA in Hj.
    destruct (H1 j Hj) as [E|E]; auto. destruct (H2 j Hj) as [F|F]; auto. congruence.
  Qed.
  Lemma empty_row a j : length a = n -> (j < k)%nat -> (forall i, (i < n)%nat -> nth i a 0%nat <> j) -> nth j (newc a) [] = rzero d.
  Proof.
    intros La Hj He. change (ctr d k P a j = rzero d). apply vec_eq; [rewrite (ctr_len HP Hk), rzero_len; auto|]. intros t Ht. rewrite (ctr_len HP Hk) in Ht by auto.
    rewrite rzero_nth, ctr_eq by auto. rewrite (nth_map_lt _ _ _ 0) by (rewrite (@masked_len n d k P HP Hk); auto).
    rewrite (@masked_nth n d k P HP Hk) by auto. rewrite rsum_0'; [unfold Rdiv; ring|]. intros i Hi. destruct (Nat.eqb_spec (nth i a 0%nat) j) as [E|E]; auto. now apply He in E.
  Qed.
  Lemma equal_kept a C j : assigns P k a -> shape k d C -> sq_cost P (newc a) a = sq_cost P C a -> (j < k)%nat -> In j a -> nth j (newc a) [] = nth j C [].
  Proof.
    intros Ha HC E Hj Hin. rewrite (centroids_gap Ha HC) in E. pose proof Ha as [La Ha']. pose proof HP as [HP1 _]. rewrite HP1 in *.
    set (h := fun i t => ((nth (nth i a 0%nat) (newc a) [])@t - (nth (nth i a 0%nat) C [])@t) * ((nth (nth i a 0%nat) (newc a) [])@t - (nth (nth i a 0%nat) C [])@t)) in *.
    assert (Z : rsum n (fun i => rsum d (fun t => h i t)) = 0) by (unfold h; cbv beta in *; lra). clear E.
    assert (Hp : forall i t, 0 <= h i t) by (intros; apply Rle_0_sqr).
    apply In_nth with (d := 0%nat) in Hin as (i & Hi & Ei). rewrite La in Hi.
    assert (Hcm : length (nth j (newc a) []) = d) by now apply (ctr_len HP Hk a). assert (Hcc : length (nth j C []) = d) by apply (shape_row HC Hj).
    apply vec_eq; [unfold mat, vec in *; congruence|]. intros t Ht. rewrite Hcm in Ht.
    assert (Z1 : rsum d (fun t => h i t) = 0).
    { apply Rle_antisym; [|apply rsum_pos; auto]. rewrite <- Z. apply (@rsum_ge_term n (fun i => rsum d (fun t => h i t)) i); auto. intros; apply rsum_pos; auto. }
    assert (Z2 : h i t = 0).
    { apply Rle_antisym; [|auto]. rewrite <- Z1. apply (@rsum_ge_term d (fun t => h i t) t); auto. }
    unfold h in Z2. rewrite Ei in Z2. apply Rmult_integral in Z2. destruct Z2; lra.
  Qed.
  Lemma equal_cleared a C : assigns P k a -> shape k d C -> sq_cost P (newc a) a = sq_cost P C a -> cleared C (newc a).
  Proof.
    intros Ha HC E j Hj. destruct (in_dec Nat.eq_dec j a) as [Hin|Hout]; [left; now apply equal_kept|].
    pose proof Ha as [La _]. pose proof HP as [HP1 _]. rewrite HP1 in *.
    right. apply empty_row; auto. intros i Hi Ei. apply Hout. rewrite <- Ei. apply nth_In. unfold vec in *. lia.
  Qed.

  Variable C0 : mat.
  Hypothesis HC0 : shape k d C0.
  Fixpoint Cs (t : nat) : mat := match t with O => C0 | S t => newc (asg (Cs t)) end.
  Definition cost (t : nat) : R := sq_cost P (Cs t) (asg (Cs t)).
  Lemma Cs_shape t : shape k d (Cs t).
  Proof. destruct t; [exact HC0|]. apply (centroids_shape HP Hk). Qed.
  Lemma Cs_assigns t : assigns P k (asg (Cs t)).
  Proof. apply (assign_assigns HP Hn Hk). apply Cs_shape. Qed.
  Lemma cost_S t : cost (S t) <= cost t.
  Proof.
    unfold cost at 1. cbn [Cs]. eapply Rle_trans; [apply (assign_opt HP Hn Hk); [apply centroids_len|apply (Cs_assigns t)]|].
    apply (centroids_opt HP Hn Hk); [apply Cs_assigns|apply Cs_shape].
  Qed.
  Lemma cost_le s t : (s <= t)%nat -> cost t <= cost s.
  Proof. induction 1; [lra|]. eapply Rle_trans; [apply cost_S|auto]. Qed.
  Lemma cost_eq t : cost (S t) = cost t -> cleared (Cs t) (Cs (S t)).
  Proof.
    intros E. cbn [Cs]. apply equal_cleared; [apply Cs_assigns|apply Cs_shape|]. apply Rle_antisym; [apply (centroids_opt HP Hn Hk); [apply Cs_assigns|apply Cs_shape]|].
    change (cost t <= sq_cost P (newc (asg (Cs t))) (asg (Cs t))). rewrite <- E. unfold cost. cbn [Cs]. apply (assign_opt HP Hn Hk); [apply centroids_len|apply (Cs_assigns t)].
  Qed.
  (** a repetition is a fixed point *)
  Lemma repeat_fixed i j : (i < j)%nat -> Cs i = Cs j -> Cs (S i) = Cs i.
  Proof.
    intros Hij E. assert (Ec : forall t, (i <= t <= j)%nat -> cost t = cost i).
    { intros t Ht. assert (Eij : cost i = cost j) by (unfold cost; now rewrite E). apply Rle_antisym; [apply cost_le; lia|]. rewrite Eij. apply cost_le; lia. }
    assert (Cl : forall m, (S i + m <= j)%nat -> cleared (Cs (S i)) (Cs (S i + m))).
    { induction m as [|m IH]; intros Hm; [rewrite Nat.add_0_r; intros l Hl; now left|]. eapply cleared_trans; [apply IH; lia|]. rewrite Nat.add_succ_r. apply cost_eq. rewrite (Ec (S (S i + m))), (Ec (S i + m)%nat) by lia. reflexivity. }
    apply cleared_antisym; try apply Cs_shape.
    - specialize (Cl (j - S i)%nat ltac:(lia)). replace (S i + (j - S i))%nat with j in Cl by lia. now rewrite <- E in Cl.
    - apply cost_eq. rewrite (Ec (S i)) by lia. reflexivity.
  Qed.
  Lemma fixed_on t m : Cs (S t) = Cs t -> Cs (t + m) = Cs t.
  Proof. intros E. induction m; [now rewrite Nat.add_0_r|]. rewrite Nat.add_succ_r. cbn [Cs]. rewrite IHm. exact E. Qed.
  Theorem stable s t : (k ^ n <= s)%nat -> (s <= t)%nat -> Cs t = Cs s.
  Proof.
    intros Hs Ht. destruct (@pigeon (fun t => asg (Cs t)) n k) as (i & j & Hij & E).
    { intros u. destruct (Cs_assigns u) as [L B]. destruct HP as [HP1 _]. rewrite HP1 in *. split; auto. }
    assert (F : Cs (S (S i)) = Cs (S i)) by (apply repeat_fixed with (j := S j); [lia|cbn [Cs]; now rewrite E]).
    pose proof (fixed_on (t - S i) F) as F1. pose proof (fixed_on (s - S i) F) as F2.
    replace (S i + (t - S i))%nat with t in F1 by lia. replace (S i + (s - S i))%nat with s in F2 by lia. congruence.
  Qed.
End Stab.

Section Loop.
  Variables (n d k : nat) (P : mat).
  Hypothesis HP : shape n d P.
  Hypothesis Hn : (0 < n)%nat.
  Hypothesis Hk : (0 < k)%nat.
  Variables (thresh : R) (max_iters : nat) (idx : list nat).
  Hypothesis Hidx : length idx = k.
  Hypothesis Hidx2 : forall i, In i idx -> (i < n)%nat.
  Notation reach := (reaches (km_cond thresh max_iters) (km_body d P k) (km_init idx P)).
  Notation C0 := (map (row P) idx).
  Lemma C0_shape : shape k d C0.
  Proof. split; [now rewrite map_length|]. intros r Hr. apply in_map_iff in Hr. destruct Hr as [i [<- Hi]]. apply (shape_row HP (Hidx2 Hi)). Qed.
  Lemma reach_Cs j s : reach j s -> km_centroids s = Cs d k P C0 j /\ km_assignment s = fst (find_assignment P (Cs d k P C0 j)) /\
    km_distortion s = mean (snd (find_assignment P (Cs d k P C0 j))) /\ km_iters s = j.
  Proof.
    induction 1 as [|j s s' H [IH1 [IH2 [IH3 IH4]]] Cd B]; [rewrite init_eq; repeat split; reflexivity|].
    rewrite body_eq in B. injection B as <-. cbv zeta. cbn [km_centroids km_assignment km_distortion km_iters Cs]. rewrite IH2, IH4. repeat split; auto. lia.
  Qed.
  Lemma reach_stable i j s t : (k ^ n <= i)%nat -> (i <= j)%nat -> reach i s -> reach j t ->
    km_centroids t = km_centroids s /\ km_assignment t = km_assignment s /\ km_distortion t = km_distortion s.
  Proof.
    intros H1 H2 Hs Ht. destruct (reach_Cs Hs) as (-> & -> & -> & _). destruct (reach_Cs Ht) as (-> & -> & -> & _).
    rewrite (stable HP Hn Hk C0_shape H1 H2). auto.
  Qed.
  (** the state after [k ^ n] iterations is a fixed point *)
  Lemma reach_fixed j s : (k ^ n <= j)%nat -> reach j s -> find_new_centroids d (km_assignment s) P k = km_centroids s.
  Proof.
    intros Hj H. destruct (reach_Cs H) as (-> & -> & _). exact (stable HP Hn Hk C0_shape Hj (Nat.le_succ_diag_r j)).
  Qed.
  (** a step that keeps the cost only clears centroids of empty clusters *)
  Lemma reach_progress j s t : reach j s -> reach (S j) t ->
    sq_cost P (km_centroids t) (km_assignment t) < sq_cost P (km_centroids s) (km_assignment s) \/
    forall l, (l < k)%nat -> nth l (km_centroids t) [] = nth l (km_centroids s) [] \/
      nth l (km_centroids t) [] = rzero d /\ forall i, (i < n)%nat -> nth i (km_assignment s) 0%nat <> l.
  Proof.
    intros Hs Ht. destruct (reach_Cs Hs) as (-> & -> & _). destruct (reach_Cs Ht) as (-> & -> & _).
    destruct (cost_S HP Hn Hk C0_shape j) as [Q|Q]; [left; exact Q|right].
    intros l Hl. destruct (in_dec Nat.eq_dec l (fst (find_assignment P (Cs d k P C0 j)))) as [Hin|Hout].
    - left. assert (Ha := Cs_assigns HP Hn Hk C0_shape j). cbn [Cs].
      apply (equal_kept HP Hn Hk Ha (Cs_shape HP Hk C0_shape j)); auto. apply Rle_antisym; [apply (centroids_opt HP Hn Hk); [exact Ha|apply (Cs_shape HP Hk C0_shape)]|].
      change (cost d k P C0 j <= sq_cost P (find_new_centroids d (fst (find_assignment P (Cs d k P C0 j))) P k) (fst (find_assignment P (Cs d k P C0 j)))). rewrite <- Q.
      unfold cost. cbn [Cs]. apply (assign_opt HP Hn Hk); [apply centroids_len|exact Ha].
    - right. assert (Ln : forall i, (i < n)%nat -> nth i (fst (find_assignment P (Cs d k P C0 j))) 0%nat <> l).
      { intros i Hi E. apply Hout. rewrite <- E. apply nth_In. rewrite (assign_len HP _). exact Hi. }
      split; [|exact Ln]. cbn [Cs]. apply (empty_row HP Hk); auto. apply (assign_len HP _).
  Qed.
  (** distortions are bounded by the initial cost *)
  Lemma dist_bound j s : reach j s -> 0 <= km_distortion s <= sqrt (sq_cost P C0 (km_assignment (km_init idx P))).
  Proof.
    intros H. destruct (reach_Cs H) as (_ & _ & Ed & _). rewrite Ed. rewrite (@mean_assign n d k P HP Hn Hk). set (C := Cs d k P C0 j). set (a := fst (find_assignment P C)).
    assert (In0 : 0 < INR n) by now apply lt_0_INR. pose proof HP as [HP1 _]. unfold mean_dist. rewrite HP1.
    assert (Hi : forall i, (i < n)%nat -> 0 <= row_dist P i C (nth i a 0%nat) <= sqrt (sq_cost P C0 (km_assignment (km_init idx P)))).
    { intros i Hi. split; [apply sqrt_pos|]. rewrite <- (sqrt_square (row_dist P i C (nth i a 0%nat))) by apply sqrt_pos. apply sqrt_le_1_alt.
      rewrite init_eq. cbn [km_assignment]. eapply Rle_trans; [|apply (cost_le HP Hn Hk C0_shape (Nat.le_0_l j))]. unfold cost, sq_cost. rewrite HP1. fold C. fold a.
      apply (@rsum_ge_term n (fun i => row_dist P i C (nth i a 0%nat) * row_dist P i C (nth i a 0%nat)) i Hi). intros; apply Rle_0_sqr. }
    split.
    - apply Rmult_le_pos; [apply rsum_pos; intros; now apply Hi|left; now apply Rinv_0_lt_compat].
    - apply Rmult_le_reg_r with (INR n); auto. unfold Rdiv. rewrite Rmult_assoc, Rinv_l, Rmult_1_r by lra.
      rewrite Rmult_comm. rewrite <- rsum_const. apply rsum_le. intros i Hl. now apply Hi.
  Qed.
  (** so that a threshold below their negative never stops a run *)
  Lemma runs_on fuel s : thresh < - sqrt (sq_cost P C0 (km_assignment (km_init idx P))) -> kmeans_with_seed d idx P k thresh max_iters fuel = Done s ->
    km_iters s = max_iters /\ reach max_iters s.
  Proof.
    intros Ht H. apply while_done in H. destruct H as [j [_ [H Cn]]]. destruct (reach_inv HP Hn Hk Hidx Hidx2 H) as [_ [E L]].
    assert (Q : (max_iters <= j)%nat).
    { unfold km_cond in Cn. apply andb_false_iff in Cn as [Cn|Cn]; [|apply Nat.ltb_ge in Cn; lia]. exfalso. destruct H as [|j s s' H Cd B].
      - rewrite init_eq in Cn. discriminate.
      - rewrite body_eq in B. injection B as <-. cbn [km_prev] in Cn. apply Rltb_false in Cn. pose proof (dist_bound H) as [D1 _].
        assert (R' : reach (S j) (let C := find_new_centroids d (km_assignment s) P k in KM C (fst (find_assignment P C)) (mean (snd (find_assignment P C))) (Some (km_distortion s)) (km_iters s + 1))) by (econstructor; [exact H|exact Cd|apply body_eq]).
        pose proof (dist_bound R') as [_ D2]. cbv zeta in *. cbn [km_distortion] in *. unfold find_assignment in D2. cbn [snd] in D2. lra. }
    assert (Ej : j = max_iters) by lia. split; [congruence|]. rewrite Ej in H. exact H.
  Qed.
End Loop.
