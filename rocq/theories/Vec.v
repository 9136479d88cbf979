(** Vectors over a scalar type as lists; index sums; inner products. *)
From Coq Require Import List Arith Lia Reals Lra.
From Verif Require Import Scalar.
Import ListNotations.
Set Implicit Arguments.

Section ListGen.
  Context {A : Type}.

  (** [tab n f] is the array of length n whose entry i is [f i]. *)
  Definition tab (n : nat) (f : nat -> A) : list A := map f (seq 0 n).

  Lemma tab_length n f : length (tab n f) = n.
  Proof. unfold tab. now rewrite map_length, seq_length. Qed.

  Lemma nth_tab n f i d : i < n -> nth i (tab n f) d = f i.
  Proof.
    intros H. unfold tab.
    rewrite (nth_indep _ d (f 0)) by (rewrite map_length, seq_length; lia).
    rewrite map_nth, seq_nth by lia. reflexivity.
  Qed.

  Lemma nth_tab_over n f i d : n <= i -> nth i (tab n f) d = d.
  Proof. intros H. apply nth_overflow. rewrite tab_length; lia. Qed.

  Lemma list_eq_nth (x y : list A) d :
    length x = length y -> (forall i, i < length x -> nth i x d = nth i y d) -> x = y.
  Proof. intros. eapply nth_ext with (d:=d) (d':=d); auto. Qed.

  Lemma tab_nth (x : list A) d : tab (length x) (fun i => nth i x d) = x.
  Proof.
    apply list_eq_nth with (d:=d); rewrite tab_length; auto.
    intros i Hi. now rewrite nth_tab.
  Qed.

  Lemma tab_ext n f g : (forall i, i < n -> f i = g i) -> tab n f = tab n g.
  Proof.
    intros H. unfold tab. apply map_ext_in. intros i Hi. apply in_seq in Hi. apply H; lia.
  Qed.

  Lemma nth_firstn (x : list A) k i d : i < k -> nth i (firstn k x) d = nth i x d.
  Proof.
    revert x i; induction k as [|k IH]; intros x i H; [lia|].
    destruct x as [|a x]; simpl; [destruct i; reflexivity|].
    destruct i; [reflexivity|]. apply IH; lia.
  Qed.

  Lemma nth_skipn (x : list A) k i d : nth i (skipn k x) d = nth (k + i) x d.
  Proof.
    revert x; induction k as [|k IH]; intros x; [reflexivity|].
    destruct x as [|a x]; simpl; [destruct i; reflexivity|]. apply IH.
  Qed.

  Lemma nth_app (x y : list A) i d :
    nth i (x ++ y) d = if i <? length x then nth i x d else nth (i - length x) y d.
  Proof.
    destruct (Nat.ltb_spec i (length x)); [apply app_nth1 | apply app_nth2]; lia.
  Qed.

  Lemma nth_repeat (a : A) n i d : i < n -> nth i (repeat a n) d = a.
  Proof.
    revert i; induction n as [|n IH]; intros i H; [lia|].
    destruct i; simpl; [reflexivity|]. apply IH; lia.
  Qed.

  Lemma nth_repeat_same (a : A) n i : nth i (repeat a n) a = a.
  Proof.
    revert i; induction n as [|n IH]; intros [|i]; simpl; auto.
  Qed.

  Definition zipw {B C : Type} (f : A -> B -> C) : list A -> list B -> list C :=
    fix go x y := match x, y with
                  | a :: x', b :: y' => f a b :: go x' y'
                  | _, _ => []
                  end.

  Lemma zipw_length B C (f : A -> B -> C) x y :
    length (zipw f x y) = Nat.min (length x) (length y).
  Proof. revert y; induction x as [|a x IH]; intros [|b y]; simpl; auto. Qed.

  Lemma nth_zipw B C (f : A -> B -> C) x y i da db dc :
    i < length x -> i < length y -> nth i (zipw f x y) dc = f (nth i x da) (nth i y db).
  Proof.
    revert y i; induction x as [|a x IH]; intros [|b y] [|i]; simpl; intros; try lia; auto.
    apply IH; lia.
  Qed.
End ListGen.

Lemma nth_map_lt {A B} (f : A -> B) x i da db :
  i < length x -> nth i (map f x) db = f (nth i x da).
Proof.
  intros H. rewrite (nth_indep _ db (f da)) by (now rewrite map_length). apply map_nth.
Qed.

Ltac len := repeat first
  [ rewrite tab_length | rewrite map_length | rewrite app_length | rewrite rev_length
  | rewrite firstn_length | rewrite skipn_length | rewrite repeat_length
  | rewrite zipw_length | rewrite seq_length | rewrite combine_length ]; simpl; try lia.
Tactic Notation "len" "in" hyp(H) :=
  repeat first
  [ rewrite tab_length in H | rewrite map_length in H | rewrite app_length in H | rewrite rev_length in H
  | rewrite firstn_length in H | rewrite skipn_length in H | rewrite repeat_length in H
  | rewrite zipw_length in H | rewrite seq_length in H | rewrite combine_length in H]; simpl in H.

Section V.
  Variable K : scalar.
  Add Field KfieldV : (s_field K).
  Local Open Scope scal_scope.
  Notation vec := (list K).
  Notation "x @ i" := (nth i x s0) (at level 5, i at level 4).

  (** sum of f 0 .. f (n-1) *)
  Fixpoint Sum (n : nat) (f : nat -> K) : K :=
    match n with 0 => s0 | S k => Sum k f + f k end.

  Lemma Sum_ext n f g : (forall i, i < n -> f i = g i) -> Sum n f = Sum n g.
  Proof.
    induction n as [|n IH]; simpl; intros H; [reflexivity|].
    rewrite IH by (intros; apply H; lia). now rewrite (H n) by lia.
  Qed.

  Lemma Sum_0 n : Sum n (fun _ => s0) = s0.
  Proof. induction n as [|n IH]; simpl; [reflexivity|]. rewrite IH; ring. Qed.

  Lemma Sum_0' n f : (forall i, i < n -> f i = s0) -> Sum n f = s0.
  Proof. intros H. rewrite (Sum_ext _ (fun _ => s0) H). apply Sum_0. Qed.

  Lemma Sum_add n f g : Sum n (fun i => f i + g i) = Sum n f + Sum n g.
  Proof. induction n as [|n IH]; simpl; [ring|]. rewrite IH; ring. Qed.

  Lemma Sum_sub n f g : Sum n (fun i => f i - g i) = Sum n f - Sum n g.
  Proof. induction n as [|n IH]; simpl; [ring|]. rewrite IH; ring. Qed.

  Lemma Sum_opp n f : Sum n (fun i => - f i) = - Sum n f.
  Proof. induction n as [|n IH]; simpl; [ring|]. rewrite IH; ring. Qed.

  Lemma Sum_mul_l n c f : Sum n (fun i => c * f i) = c * Sum n f.
  Proof. induction n as [|n IH]; simpl; [ring|]. rewrite IH; ring. Qed.

  Lemma Sum_mul_r n c f : Sum n (fun i => f i * c) = Sum n f * c.
  Proof. induction n as [|n IH]; simpl; [ring|]. rewrite IH; ring. Qed.

  Lemma star_Sum n f : star (Sum n f) = Sum n (fun i => star (f i)).
  Proof. induction n as [|n IH]; simpl; [apply star_0|]. now rewrite star_add, IH. Qed.

  Lemma Sum_exchange m n f :
    Sum m (fun i => Sum n (fun j => f i j)) = Sum n (fun j => Sum m (fun i => f i j)).
  Proof.
    induction m as [|m IH]; simpl; [now rewrite Sum_0|]. now rewrite IH, Sum_add.
  Qed.

  Lemma Sum_split n m f : Sum (n + m) f = Sum n f + Sum m (fun i => f (n + i)%nat).
  Proof.
    induction m as [|m IH]; simpl.
    - rewrite Nat.add_0_r; ring.
    - rewrite Nat.add_succ_r; simpl. rewrite IH; ring.
  Qed.

  Lemma Sum_S_l n f : Sum (S n) f = f 0%nat + Sum n (fun i => f (S i)).
  Proof.
    change (S n) with (1 + n)%nat. rewrite Sum_split. simpl. ring.
  Qed.

  Lemma Sum_rev n f : Sum n f = Sum n (fun i => f (n - 1 - i)%nat).
  Proof.
    induction n as [|n IH]; [reflexivity|].
    rewrite Sum_S_l. rewrite (Sum_S_l n (fun i => f (S n - 1 - i)%nat)).
    replace (S n - 1 - 0)%nat with n by lia.
    rewrite <- Sum_S_l. simpl. rewrite IH.
    transitivity (f n + Sum n (fun i => f (n - 1 - i)%nat)); [ring|].
    f_equal. apply Sum_ext. intros i Hi. f_equal. lia.
  Qed.

  (** a single nonzero term *)
  Lemma Sum_single n k f : k < n -> (forall i, i < n -> i <> k -> f i = s0) -> Sum n f = f k.
  Proof.
    induction n as [|n IH]; intros Hk Hz; [lia|]. simpl.
    destruct (Nat.eq_dec k n) as [->|Hne].
    - rewrite Sum_0'; [ring|]. intros i Hi. apply Hz; lia.
    - rewrite IH; [|lia|intros; apply Hz; lia]. rewrite (Hz n) by lia. ring.
  Qed.

  Lemma Sum_ind n k (c : K) : k < n -> Sum n (fun i => if Nat.eqb i k then c else s0) = c.
  Proof.
    intros H. rewrite (Sum_single (k:=k)); auto.
    - now rewrite Nat.eqb_refl.
    - intros i _ Hi. apply Nat.eqb_neq in Hi. now rewrite Hi.
  Qed.

  (** sum of a list *)
  Fixpoint lsum (x : vec) : K := match x with [] => s0 | a :: r => a + lsum r end.

  Lemma lsum_app x y : lsum (x ++ y) = lsum x + lsum y.
  Proof. induction x as [|a x IH]; simpl; [ring|]. rewrite IH; ring. Qed.

  Lemma lsum_Sum x : lsum x = Sum (length x) (fun i => x@i).
  Proof.
    induction x as [|a x IH]; [reflexivity|].
    cbn [length]. rewrite Sum_S_l. simpl. now rewrite IH.
  Qed.

  Lemma lsum_tab n f : lsum (tab n f) = Sum n f.
  Proof.
    rewrite lsum_Sum, tab_length. apply Sum_ext. intros. now rewrite nth_tab.
  Qed.

  (** elementwise vector operations *)
  Definition vadd (x y : vec) : vec := zipw sadd x y.
  Definition vsub (x y : vec) : vec := zipw ssub x y.
  Definition vmul (x y : vec) : vec := zipw smul x y.
  Definition vdivv (x y : vec) : vec := zipw sdiv x y.
  Definition vscale (c : K) (x : vec) : vec := map (smul c) x.
  Definition vopp (x : vec) : vec := map sopp x.
  Definition vstar (x : vec) : vec := map star x.
  Definition vzero (n : nat) : vec := repeat s0 n.
  Definition vbasis (n i : nat) : vec := tab n (fun j => if Nat.eqb j i then s1 else s0).

  (** jnp.vdot: conjugate the first argument *)
  Fixpoint inner (x y : vec) : K :=
    match x, y with
    | a :: x', b :: y' => star a * b + inner x' y'
    | _, _ => s0
    end.
  (** the bilinear product x^T y *)
  Fixpoint dotu (x y : vec) : K :=
    match x, y with
    | a :: x', b :: y' => a * b + dotu x' y'
    | _, _ => s0
    end.

  Lemma vadd_length n x y : length x = n -> length y = n -> length (vadd x y) = n.
  Proof. unfold vadd; len. Qed.
  Lemma vsub_length n x y : length x = n -> length y = n -> length (vsub x y) = n.
  Proof. unfold vsub; len. Qed.
  Lemma vmul_length n x y : length x = n -> length y = n -> length (vmul x y) = n.
  Proof. unfold vmul; len. Qed.
  Lemma vscale_length c x : length (vscale c x) = length x.
  Proof. unfold vscale; len. Qed.
  Lemma vopp_length x : length (vopp x) = length x.
  Proof. unfold vopp; len. Qed.
  Lemma vstar_length x : length (vstar x) = length x.
  Proof. unfold vstar; len. Qed.
  Lemma vzero_length n : length (vzero n) = n.
  Proof. apply repeat_length. Qed.
  Lemma vbasis_length n i : length (vbasis n i) = n.
  Proof. apply tab_length. Qed.

  Lemma vadd_nth x y i : length x = length y -> (vadd x y)@i = x@i + y@i.
  Proof.
    intros H. destruct (Nat.lt_ge_cases i (length x)).
    - unfold vadd. now rewrite nth_zipw with (da:=s0) (db:=s0) by lia.
    - rewrite !nth_overflow; try lia; [ring|]. unfold vadd; len.
  Qed.
  Lemma vsub_nth x y i : length x = length y -> (vsub x y)@i = x@i - y@i.
  Proof.
    intros H. destruct (Nat.lt_ge_cases i (length x)).
    - unfold vsub. now rewrite nth_zipw with (da:=s0) (db:=s0) by lia.
    - rewrite !nth_overflow; try lia; [ring|]. unfold vsub; len.
  Qed.
  Lemma vmul_nth x y i : length x = length y -> (vmul x y)@i = x@i * y@i.
  Proof.
    intros H. destruct (Nat.lt_ge_cases i (length x)).
    - unfold vmul. now rewrite nth_zipw with (da:=s0) (db:=s0) by lia.
    - rewrite !nth_overflow; try lia; [ring|]. unfold vmul; len.
  Qed.
  Lemma vscale_nth c x i : (vscale c x)@i = c * x@i.
  Proof.
    destruct (Nat.lt_ge_cases i (length x)).
    - unfold vscale. now rewrite nth_map_lt with (da:=s0).
    - rewrite !nth_overflow; try lia; [ring|]. rewrite vscale_length; lia.
  Qed.
  Lemma vopp_nth x i : (vopp x)@i = - x@i.
  Proof.
    destruct (Nat.lt_ge_cases i (length x)).
    - unfold vopp. now rewrite nth_map_lt with (da:=s0).
    - rewrite !nth_overflow; try lia; [ring|]. rewrite vopp_length; lia.
  Qed.
  Lemma vstar_nth x i : (vstar x)@i = star x@i.
  Proof.
    destruct (Nat.lt_ge_cases i (length x)).
    - unfold vstar. now rewrite nth_map_lt with (da:=s0).
    - rewrite !nth_overflow; try lia; [now rewrite star_0|]. rewrite vstar_length; lia.
  Qed.
  Lemma vzero_nth n i : (vzero n)@i = s0.
  Proof. apply nth_repeat_same. Qed.
  Lemma vbasis_nth n i j : j < n -> (vbasis n i)@j = if Nat.eqb j i then s1 else s0.
  Proof. intros. unfold vbasis. now rewrite nth_tab. Qed.

  Lemma vstar_vstar x : vstar (vstar x) = x.
  Proof. unfold vstar. rewrite map_map. rewrite <- (map_id x) at 2. apply map_ext. apply star_star. Qed.

  Lemma inner_Sum n x y : length x = n -> length y = n ->
    inner x y = Sum n (fun i => star (x@i) * y@i).
  Proof.
    revert x y; induction n as [|n IH]; intros x y Hx Hy.
    - destruct x; [reflexivity | discriminate].
    - destruct x as [|a x]; [discriminate|]. destruct y as [|b y]; [discriminate|].
      rewrite Sum_S_l. simpl. f_equal. apply IH; simpl in *; lia.
  Qed.

  Lemma dotu_Sum n x y : length x = n -> length y = n ->
    dotu x y = Sum n (fun i => x@i * y@i).
  Proof.
    revert x y; induction n as [|n IH]; intros x y Hx Hy.
    - destruct x; [reflexivity | discriminate].
    - destruct x as [|a x]; [discriminate|]. destruct y as [|b y]; [discriminate|].
      rewrite Sum_S_l. simpl. f_equal. apply IH; simpl in *; lia.
  Qed.

  Lemma inner_dotu x y : inner x y = dotu (vstar x) y.
  Proof. revert y; induction x as [|a x IH]; intros [|b y]; simpl; auto. now rewrite IH. Qed.

  Lemma inner_sym x y : inner y x = star (inner x y).
  Proof.
    revert y; induction x as [|a x IH]; intros [|b y]; simpl; rewrite ?star_0; auto.
    rewrite star_add, star_mul, star_star, <- IH. ring.
  Qed.

  Lemma dotu_sym x y : dotu x y = dotu y x.
  Proof.
    revert y; induction x as [|a x IH]; intros [|b y]; simpl; auto.
    rewrite IH. ring.
  Qed.

  Lemma inner_app x1 x2 y1 y2 : length x1 = length y1 ->
    inner (x1 ++ x2) (y1 ++ y2) = inner x1 y1 + inner x2 y2.
  Proof.
    revert y1; induction x1 as [|a x1 IH]; intros [|b y1] H; simpl in *; try discriminate.
    - ring.
    - rewrite IH by lia. ring.
  Qed.

  Lemma inner_nil_l y : inner [] y = s0. Proof. reflexivity. Qed.
  Lemma inner_nil_r x : inner x [] = s0. Proof. destruct x; reflexivity. Qed.

  Lemma inner_rev x y : length x = length y -> inner (rev x) (rev y) = inner x y.
  Proof.
    revert y; induction x as [|a x IH]; intros [|b y] H; simpl in *; try discriminate; auto.
    rewrite inner_app by (len; lia). rewrite IH by lia. simpl. ring.
  Qed.

  Lemma inner_add_l x y z : length x = length y -> inner (vadd x y) z = inner x z + inner y z.
  Proof.
    revert y z; induction x as [|a x IH]; intros [|b y] z H; simpl in *; try discriminate.
    - ring.
    - destruct z as [|c z]; simpl; [ring|]. fold (vadd x y). rewrite IH by lia.
      rewrite star_add. ring.
  Qed.
  Lemma inner_add_r x y z : length y = length z -> inner x (vadd y z) = inner x y + inner x z.
  Proof.
    revert x z; induction y as [|a y IH]; intros x [|b z] H; simpl in *; try discriminate.
    - rewrite inner_nil_r. ring.
    - destruct x as [|c x]; simpl; [ring|]. fold (vadd y z). rewrite IH by lia. ring.
  Qed.
  Lemma inner_sub_l x y z : length x = length y -> inner (vsub x y) z = inner x z - inner y z.
  Proof.
    revert y z; induction x as [|a x IH]; intros [|b y] z H; simpl in *; try discriminate.
    - ring.
    - destruct z as [|c z]; simpl; [ring|]. fold (vsub x y). rewrite IH by lia.
      rewrite star_sub. ring.
  Qed.
  Lemma inner_sub_r x y z : length y = length z -> inner x (vsub y z) = inner x y - inner x z.
  Proof.
    revert x z; induction y as [|a y IH]; intros x [|b z] H; simpl in *; try discriminate.
    - rewrite inner_nil_r. ring.
    - destruct x as [|c x]; simpl; [ring|]. fold (vsub y z). rewrite IH by lia. ring.
  Qed.
  Lemma inner_scale_l c x y : inner (vscale c x) y = star c * inner x y.
  Proof.
    revert y; induction x as [|a x IH]; intros [|b y]; simpl; try ring.
    fold (vscale c x). rewrite IH, star_mul. ring.
  Qed.
  Lemma inner_scale_r c x y : inner x (vscale c y) = c * inner x y.
  Proof.
    revert y; induction x as [|a x IH]; intros [|b y]; simpl; try ring.
    fold (vscale c y). rewrite IH. ring.
  Qed.
  Lemma inner_opp_l x y : inner (vopp x) y = - inner x y.
  Proof.
    revert y; induction x as [|a x IH]; intros [|b y]; simpl; try ring.
    fold (vopp x). rewrite IH, star_opp. ring.
  Qed.
  Lemma inner_opp_r x y : inner x (vopp y) = - inner x y.
  Proof.
    revert y; induction x as [|a x IH]; intros [|b y]; simpl; try ring.
    fold (vopp y). rewrite IH. ring.
  Qed.
  Lemma inner_zero_l n y : inner (vzero n) y = s0.
  Proof.
    revert y; induction n as [|n IH]; intros [|b y]; simpl; auto.
    fold (vzero n). rewrite IH, star_0. ring.
  Qed.
  Lemma inner_zero_r n x : inner x (vzero n) = s0.
  Proof. rewrite inner_sym, inner_zero_l. apply star_0. Qed.

  Lemma inner_basis_l n i y : i < n -> length y = n -> inner (vbasis n i) y = y@i.
  Proof.
    intros Hi Hy. rewrite (@inner_Sum n) by (auto; apply vbasis_length).
    rewrite (Sum_single (k:=i)); auto.
    - rewrite vbasis_nth, Nat.eqb_refl, star_1 by auto. ring.
    - intros j Hj Hne. rewrite vbasis_nth by auto. apply Nat.eqb_neq in Hne. rewrite Hne, star_0. ring.
  Qed.

  Lemma inner_basis_r n i x : i < n -> length x = n -> inner x (vbasis n i) = star (x@i).
  Proof. intros. rewrite inner_sym, inner_basis_l; auto. Qed.

  (** equality of vectors from equality of all inner products *)
  Lemma inner_ext n x y : length x = n -> length y = n ->
    (forall z, length z = n -> inner z x = inner z y) -> x = y.
  Proof.
    intros Hx Hy H. apply list_eq_nth with (d:=s0); [congruence|].
    intros i Hi. specialize (H (vbasis n i) (vbasis_length n i)).
    rewrite !inner_basis_l in H by lia. exact H.
  Qed.

  (** Matrix-kernel criterion for adjointness. *)
  Lemma adjoint_kernel m n (a : nat -> nat -> K) x y tx ty :
    length x = n -> length y = m -> length tx = m -> length ty = n ->
    (forall i, i < m -> tx@i = Sum n (fun j => a i j * x@j)) ->
    (forall j, j < n -> ty@j = Sum m (fun i => star (a i j) * y@i)) ->
    inner tx y = inner x ty.
  Proof.
    intros Hx Hy Htx Hty E1 E2.
    rewrite (@inner_Sum m), (@inner_Sum n) by auto.
    rewrite (@Sum_ext m _ (fun i => Sum n (fun j => star (a i j) * star (x@j) * y@i))).
    2:{ intros i Hi. rewrite E1 by auto. rewrite star_Sum, <- Sum_mul_r. apply Sum_ext.
        intros j Hj. rewrite star_mul. reflexivity. }
    rewrite Sum_exchange. apply Sum_ext. intros j Hj. rewrite E2 by auto.
    rewrite <- Sum_mul_l. apply Sum_ext. intros i Hi. ring.
  Qed.

  (** linear combination of a list of vectors *)
  Definition lincomb (n : nat) (c : vec) (cols : list vec) : vec :=
    fold_right vadd (vzero n) (zipw vscale c cols).
End V.

Arguments vzero {K}. Arguments vbasis {K}.
Arguments inner {K}. Arguments dotu {K}. Arguments Sum {K}. Arguments lsum {K}.
Arguments vadd {K}. Arguments vsub {K}. Arguments vmul {K}. Arguments vdivv {K}. Arguments vscale {K}.
Arguments vopp {K}. Arguments vstar {K}.
