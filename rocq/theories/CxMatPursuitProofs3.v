From Coq Require Import List Arith Bool Lia Reals Lra.
From Verif Require Import Scalar Vec RVec Loop OptModel SelModel PursuitModel CxSpec CxProofs CxSpglModel CxPursuitModel CxPursuitSpec CxPursuitProofs CxPursuitProofs2 CxMatPursuitModel CxMatPursuitSpec CxMatPursuitProofs.
Import ListNotations.
Set Implicit Arguments.
Local Open Scope R_scope.

Lemma snoc_nth1 A k (l : list A) x d i : length l = k -> (i < k)%nat -> nth i (l ++ [x]) d = nth i l d.
Proof. intros <- H. now apply app_nth1. Qed.
Lemma snoc_nth2 A k (l : list A) x d : length l = k -> nth k (l ++ [x]) d = x.
Proof. intros <-. rewrite app_nth2 by lia. now rewrite Nat.sub_diag. Qed.
Lemma snoc_len A k (l : list A) x : length l = k -> length (l ++ [x]) = S k.
Proof. intros <-. rewrite app_length. cbn. lia. Qed.
Lemma map_nth_k A B k (f : A -> B) l i d d' : length l = k -> (i < k)%nat -> nth i (map f l) d' = f (nth i l d).
Proof. intros <- H. now apply nth_map_lt. Qed.
Definition ext (L : list cvec) (w : cvec) (s : Cx) : list cvec := map (fun r : cvec => r ++ [((0, 0) : Cs)]) L ++ [w ++ [(s : Cs)]].
(** *** the bilinear product *)
Notation "a +c b" := (Cadd a b) (at level 50, left associativity).
Notation "a *c b" := (Cmul a b) (at level 40, left associativity).
Definition bp (a b : cvec) : Cx := dotu a b.
Lemma bp_cons p a q b : bp (p :: a) (q :: b) = p *c q +c bp a b. Proof. reflexivity. Qed.
Lemma bp_nil_r a : bp a [] = (0, 0). Proof. destruct a; reflexivity. Qed.
Ltac cx := repeat match goal with z : Cx |- _ => destruct z end; unfold Cadd, Cmul, Csub; cbn [fst snd]; apply (f_equal2 pair); ring.
Lemma bp_app : forall a b a' b' : cvec, length a = length b -> bp (a ++ a') (b ++ b') = bp a b +c bp a' b'.
Proof.
  induction a as [|p a IH]; intros [|q b] a' b' L; try discriminate.
  - cbn [app]. change (bp [] []) with ((0, 0) : Cx). generalize (bp a' b'). intros z. cx.
  - cbn [app]. rewrite !bp_cons, IH by (exact (eq_add_S _ _ L)). generalize (bp a b) (bp a' b') (p : Cx) (q : Cx). intros. cx.
Qed.
Lemma bp_app0 (a b : cvec) (u v : Cs) : length a = length b -> bp (a ++ [u]) (b ++ [v]) = bp a b +c u *c v.
Proof. intros L. rewrite bp_app by exact L. rewrite bp_cons. change (bp [] []) with ((0, 0) : Cx). generalize (bp a b). intros. cx. Qed.
Lemma bp_sub a : forall u v : cvec, length u = length v -> bp a (vsub u v) = Csub (bp a u) (bp a v).
Proof.
  induction a as [|p a IH]; intros [|x u] [|z v] L; try discriminate; try (cbn; cx).
  change (vsub (x :: u) (z :: v)) with ((Csub x z : Cx) :: vsub u v). rewrite !bp_cons, IH by (exact (eq_add_S _ _ L)).
  generalize (bp a u) (bp a v) (p : Cx) (x : Cx) (z : Cx). intros. cx.
Qed.
Lemma bp_add a : forall u v : cvec, length u = length v -> bp a (vadd u v) = bp a u +c bp a v.
Proof.
  induction a as [|p a IH]; intros [|x u] [|z v] L; try discriminate; try (cbn; cx).
  change (vadd (x :: u) (z :: v)) with ((Cadd x z : Cx) :: vadd u v). rewrite !bp_cons, IH by (exact (eq_add_S _ _ L)).
  generalize (bp a u) (bp a v) (p : Cx) (x : Cx) (z : Cx). intros. cx.
Qed.
Lemma bp_scale a c : forall u : cvec, bp a (vscale (c : Cs) u) = c *c bp a u.
Proof.
  induction a as [|p a IH]; intros [|x u]; try (cbn; cx).
  change (vscale (c : Cs) (x :: u)) with ((Cmul c x : Cx) :: vscale (c : Cs) u). rewrite !bp_cons, IH.
  generalize (bp a u) (p : Cx) (x : Cx) (c : Cx). intros. cx.
Qed.
Lemma bp_zero a m : bp a (vzero m : cvec) = (0, 0).
Proof. revert m. induction a as [|p a IH]; intros [|m]; try reflexivity. change (vzero (S m) : cvec) with (((0, 0) : Cx) :: (vzero m : cvec)). rewrite bp_cons, IH. generalize (p : Cx). intros. cx. Qed.
Lemma bp_lincomb m a : forall (x : cvec) cols, (forall c, In c cols -> length c = m) ->
  bp a (@Vec.lincomb Cs m x cols) = bp (map (bp a) cols) x.
Proof.
  induction x as [|p x IH]; intros [|c cols] H.
  - exact (bp_zero a m).
  - rewrite bp_nil_r. exact (bp_zero a m).
  - exact (bp_zero a m).
  - change (@Vec.lincomb Cs m (p :: x) (c :: cols)) with (vadd (vscale (p : Cs) c) (@Vec.lincomb Cs m x cols)).
    assert (H' : forall d, In d cols -> length d = m) by (intros; apply H; now right).
    rewrite bp_add; [|rewrite vscale_length, (@clc_len m x cols H'); apply H; now left].
    rewrite bp_scale, IH by exact H'. cbn [map]. rewrite bp_cons. generalize (bp a c) (bp (map (bp a) cols) x) (p : Cx). intros. cx.
Qed.

(** *** orthogonal matching pursuit with columns of bilinear square 1 *)
Section O.
  Variables (m : nat) (Phi : list cvec) (y : cvec).
  Variables (solve_L spd : list cvec -> cvec -> cvec) (csqrt : Cx -> Cx).
  Hypothesis HP : has_rows m Phi.
  Hypothesis HN : Phi <> [].
  Hypothesis Ly : length y = m.
  Hypothesis H1 : forall a, In a Phi -> bp a a = (1, 0).
  Hypothesis Hsq : forall z, csqrt z *c csqrt z = z.
  Notation st k := (Nat.iter k (momp_step solve_L spd csqrt Phi y) (momp_init Phi y)).
  Definition rows_ok (k : nat) (L J : list cvec) : Prop :=
    length L = k /\ (forall r, In r L -> length r = k) /\
    forall i j, (i < k)%nat -> (j < k)%nat -> bp (nth i L []) (nth j L []) = bp (nth i J []) (nth j J []).
  Lemma chol_ok k L J (w a : cvec) : rows_ok k L J -> length J = k -> bp a a = (1, 0) -> length w = k ->
    map (fun r => bp r w) L = map (fun c => bp c a) J ->
    rows_ok (S k) (ext L w (csqrt (Csub (1, 0) (sumsq w)))) (J ++ [a]).
  Proof.
    intros (R1 & R2 & R3) LJ Ha Lw E. assert (Sym : forall u v : cvec, bp u v = bp v u).
    { clear. induction u as [|p u IH]; intros [|q v]; try reflexivity. rewrite !bp_cons, IH. generalize (bp v u) (p : Cx) (q : Cx). intros. cx. }
    assert (N1 : forall i, (i < k)%nat -> nth i (ext L w (csqrt (Csub (1, 0) (sumsq w)))) [] = nth i L [] ++ [((0, 0) : Cs)]).
    { intros i Hi. etransitivity; [apply (@snoc_nth1 _ k); [exact (eq_trans (map_length _ L) R1)|exact Hi]|]. apply (@map_nth_k cvec cvec k (fun r : cvec => r ++ [((0, 0) : Cs)]) L i [] []); [exact R1|exact Hi]. }
    assert (N2 : nth k (ext L w (csqrt (Csub (1, 0) (sumsq w)))) [] = w ++ [(csqrt (Csub (1, 0) (sumsq w)) : Cs)]).
    { apply (@snoc_nth2 _ k); exact (eq_trans (map_length _ L) R1). }
    assert (LN : forall i, (i < k)%nat -> length (nth i L []) = k) by (intros i Hi; apply R2, nth_In; exact (eq_ind_r (fun t => (i < t)%nat) Hi R1)).
    assert (C : forall i, (i < k)%nat -> bp (nth i L []) w = bp (nth i J []) a).
    { intros i Hi. transitivity (nth i (map (fun r => bp r w) L) (0, 0)); [symmetry; apply (@map_nth_k cvec Cx k (fun r => bp r w) L i [] (0, 0)); [exact R1|exact Hi]|]. rewrite E. apply (@map_nth_k cvec Cx k (fun c => bp c a) J i [] (0, 0)); [exact LJ|exact Hi]. }
    assert (M : forall i, (i < k)%nat -> bp (nth i L [] ++ [((0, 0) : Cs)]) (w ++ [(csqrt (Csub (1, 0) (sumsq w)) : Cs)]) = bp (nth i J []) a).
    { intros i Hi. rewrite bp_app0 by (now rewrite LN). rewrite C by exact Hi. generalize (bp (nth i J []) a) (csqrt (Csub (1, 0) (sumsq w))). intros. cx. }
    split; [apply snoc_len; exact (eq_trans (map_length _ L) R1)|]. split.
    - intros r Hr. apply in_app_or in Hr as [Hr|[<-|[]]].
      + apply in_map_iff in Hr as (r0 & <- & Hr). apply snoc_len. exact (R2 _ Hr).
      + apply snoc_len. exact Lw.
    - assert (J1 : forall i, (i < k)%nat -> nth i (J ++ [a]) [] = nth i J []) by (intros i Hi; apply (@snoc_nth1 _ k); [exact LJ|exact Hi]).
      assert (J2 : nth k (J ++ [a]) [] = a) by (apply (@snoc_nth2 _ k); exact LJ).
      intros i j Hi Hj. destruct (Nat.eq_dec i k) as [->|Ni]; destruct (Nat.eq_dec j k) as [->|Nj].
      + rewrite !N2, J2, bp_app0 by reflexivity. rewrite Hsq, Ha. unfold sumsq. fold (bp w w). generalize (bp w w). intros. cx.
      + rewrite N2, J2, N1, J1 by lia. rewrite Sym, M by lia. apply Sym.
      + rewrite N2, J2, N1, J1 by lia. apply M. lia.
      + rewrite !N1, !J1 by lia. rewrite bp_app0 by (rewrite !LN by lia; reflexivity). rewrite R3 by lia. generalize (bp (nth i J []) (nth j J [])). intros. cx.
  Qed.
  (** the solvers are exact on the factors of this run *)
  Definition lower_exact (k : nat) : Prop := forall b, length b = length (mo_L (st k)) ->
    length (solve_L (mo_L (st k)) b) = length b /\ map (fun r => bp r (solve_L (mo_L (st k)) b)) (mo_L (st k)) = b.
  Definition spd_exact (k : nat) : Prop := forall b, length b = length (mo_L (st k)) ->
    length (spd (mo_L (st k)) b) = length b /\
    map (fun r => bp (map (bp r) (mo_L (st k))) (spd (mo_L (st k)) b)) (mo_L (st k)) = b.
  Notation I k := (ms_I (mo_sol (st k))).
  Lemma st_S k : st (S k) = momp_step solve_L spd csqrt Phi y (st k). Proof. reflexivity. Qed.
  Lemma I_S k : I (S k) = I k ++ [cabs_max_idx (mcorr Phi (ms_r (mo_sol (st k))))]. Proof. reflexivity. Qed.
  Lemma I_range k : length (I k) = S k /\ forall i, In i (I k) -> (i < length Phi)%nat.
  Proof.
    induction k as [|k [IH1 IH2]].
    - split; [reflexivity|]. intros i [<-|[]]. rewrite <- (mcorr_len Phi y). apply cmax_lt. now apply mcorr_ne.
    - rewrite I_S. split; [rewrite app_length, IH1; cbn; lia|]. intros i Hi. apply in_app_or in Hi as [Hi|[<-|[]]]; auto.
      rewrite <- (mcorr_len Phi (ms_r (mo_sol (st k)))). apply cmax_lt. now apply mcorr_ne.
  Qed.
  Lemma mo_rows k : (forall j, (j < k)%nat -> lower_exact j) -> rows_ok (S k) (mo_L (st k)) (mcols Phi (I k)).
  Proof.
    induction k as [|k IH]; intros HL.
    - split; [reflexivity|]. split; [intros r [<-|[]]; reflexivity|]. intros [|i] [|j] Hi Hj; try lia. cbn [Nat.iter nat_rect]. unfold momp_init. cbn [mo_L mo_sol ms_make ms_I mcols map nth].
      transitivity ((1, 0) : Cx); [cbn; cx|symmetry; apply H1]. apply nth_In. rewrite <- (mcorr_len Phi y). apply cmax_lt. now apply mcorr_ne.
    - assert (R := IH (fun j Hj => HL j (Nat.lt_lt_succ_r _ _ Hj))). rewrite I_S.
      set (i := cabs_max_idx (mcorr Phi (ms_r (mo_sol (st k))))).
      set (v := map (fun a => dotu a (nth i Phi [])) (mcols Phi (I k))).
      replace (mcols Phi (I k ++ [i])) with (mcols Phi (I k) ++ [nth i Phi []]) by (unfold mcols; now rewrite map_app).
      change (mo_L (st (S k))) with (ext (mo_L (st k)) (solve_L (mo_L (st k)) v) (csqrt (Csub (1, 0) (sumsq (solve_L (mo_L (st k)) v))))).
      assert (Lv : length v = length (mo_L (st k))) by (unfold v, mcols; rewrite !map_length; destruct R as [R _]; rewrite R; apply I_range).
      destruct (HL k (Nat.lt_succ_diag_r k) v Lv) as [E1 E2]. apply chol_ok; auto.
      + unfold mcols. rewrite map_length. apply I_range.
      + apply H1, nth_In. rewrite <- (mcorr_len Phi (ms_r (mo_sol (st k)))). apply cmax_lt. now apply mcorr_ne.
      + rewrite E1, Lv. apply R.
  Qed.
  Lemma omp_bilinear k : (forall j, (j < k)%nat -> lower_exact j) -> ((0 < k)%nat -> spd_exact k) ->
    length (ms_x (mo_sol (st k))) = S k /\ forall i, In i (I k) -> bp (nth i Phi []) (ms_r (mo_sol (st k))) = (0, 0).
  Proof.
    intros HL HS. pose proof (mo_rows HL) as R.
    destruct k as [|k].
    - split; [reflexivity|]. intros i Hi. cbn [Nat.iter nat_rect] in *. unfold momp_init in *. cbn [mo_sol ms_make ms_I ms_r] in *. destruct Hi as [<-|[]].
      set (i := cabs_max_idx _). assert (Hi : (i < length Phi)%nat) by (unfold i; rewrite <- (mcorr_len Phi y); apply cmax_lt; now apply mcorr_ne).
      assert (La : length (nth i Phi []) = m) by (apply HP, nth_In; exact Hi).
      assert (Hc : forall c, In c (mcols Phi [i]) -> length c = m) by (intros c [<-|[]]; exact La).
      unfold msynth. rewrite Ly. rewrite bp_sub by (rewrite clc_len by exact Hc; exact Ly). rewrite bp_lincomb by exact Hc.
      cbn [mcols map cgather]. rewrite mcorr_nth by exact Hi. rewrite bp_cons, (H1 _ (nth_In _ _ Hi)). change (bp [] []) with ((0, 0) : Cx). fold (bp (nth i Phi []) y). generalize (bp (nth i Phi []) y). intros. cx.
    - specialize (HS (Nat.lt_0_succ k)). set (p := mcorr Phi y). set (b := cgather p (I (S k))).
      assert (Lb : length b = length (mo_L (st (S k)))) by (unfold b; rewrite cgather_len; destruct R as [R _]; rewrite R; apply I_range).
      destruct (HS b Lb) as [E1 E2]. assert (X : ms_x (mo_sol (st (S k))) = spd (mo_L (st (S k))) b) by reflexivity.
      split; [rewrite X, E1, Lb; apply R|]. intros i Hi.
      assert (Hr : (i < length Phi)%nat) by (now apply (I_range (S k))).
      assert (Hc : forall c, In c (mcols Phi (I (S k))) -> length c = m) by (apply mcols_len; [exact HP|apply I_range]).
      assert (Er : ms_r (mo_sol (st (S k))) = vsub y (@Vec.lincomb Cs m (ms_x (mo_sol (st (S k)))) (mcols Phi (I (S k))))) by (rewrite <- Ly; reflexivity).
      rewrite Er, bp_sub by (rewrite clc_len by exact Hc; exact Ly). rewrite bp_lincomb by exact Hc. rewrite X.
      destruct (In_nth _ _ 0%nat Hi) as (n & Hn & En). destruct R as (R1 & R2 & R3). destruct (I_range (S k)) as [LI _]. rewrite LI in Hn.
      assert (Q : nth n (map (fun r => bp (map (bp r) (mo_L (st (S k)))) (spd (mo_L (st (S k))) b)) (mo_L (st (S k)))) (0, 0) = nth n b (0, 0)) by (now rewrite E2).
      rewrite (@map_nth_k cvec Cx (S (S k)) (fun r => bp (map (bp r) (mo_L (st (S k)))) (spd (mo_L (st (S k))) b)) (mo_L (st (S k))) n [] (0, 0) R1 Hn) in Q.
      assert (Eb : nth n b (0, 0) = bp (nth i Phi []) y).
      { etransitivity; [apply (@map_nth_k nat Cx (S (S k)) (fun i => nth i p (0, 0)) (I (S k)) n 0%nat (0, 0)); [exact LI|exact Hn]|]. rewrite En. unfold p. now rewrite mcorr_nth. }
      assert (Em : map (bp (nth n (mo_L (st (S k))) [])) (mo_L (st (S k))) = map (bp (nth i Phi [])) (mcols Phi (I (S k)))).
      { assert (LM : length (mcols Phi (I (S k))) = S (S k)) by (unfold mcols; rewrite map_length; exact LI).
        apply nth_ext with (d := (0, 0)) (d' := (0, 0)); [exact (eq_trans (map_length _ _) (eq_trans R1 (eq_sym (eq_trans (map_length _ _) LM))))|].
        intros j Hj'. assert (Hj : (j < S (S k))%nat) by (exact (eq_ind _ (fun t => (j < t)%nat) Hj' _ (eq_trans (map_length _ _) R1))).
        rewrite (@map_nth_k cvec Cx (S (S k)) (bp (nth n (mo_L (st (S k))) [])) (mo_L (st (S k))) j [] (0, 0) R1 Hj).
        rewrite (@map_nth_k cvec Cx (S (S k)) (bp (nth i Phi [])) (mcols Phi (I (S k))) j [] (0, 0) LM Hj). rewrite R3 by assumption. f_equal.
        etransitivity; [apply (@map_nth_k nat cvec (S (S k)) (fun i => nth i Phi []) (I (S k)) n 0%nat []); [exact LI|exact Hn]|]. now rewrite En. }
      rewrite Em in Q. rewrite Q, Eb. generalize (bp (nth i Phi []) y). intros. cx.
  Qed.
End O.

(** *** orthogonality to the selected columns makes the coefficients optimal *)
Lemma inner_add_l1 (r : cvec) : forall u v : cvec, length u = length v -> (inner (vadd u v) r : Cx) = inner u r +c inner v r.
Proof.
  intros u v L. revert v r L. induction u as [|a u IH]; intros [|b v] [|c r] L; try discriminate; try (cbn; cx).
  change (Cmul (Cconj (Cadd a b)) c +c (inner (vadd u v) r : Cx) = (Cmul (Cconj a) c +c (inner u r : Cx)) +c (Cmul (Cconj b) c +c (inner v r : Cx))).
  rewrite IH by (exact (eq_add_S _ _ L)). generalize (inner u r : Cx) (inner v r : Cx) (a : Cx) (b : Cx) (c : Cx). unfold Cconj. intros. cx.
Qed.
Lemma inner_lin_orth m (r : cvec) : forall (x : cvec) cols, (forall c, In c cols -> length c = m /\ (inner c r : Cx) = (0, 0)) ->
  (inner (@Vec.lincomb Cs m x cols) r : Cx) = (0, 0).
Proof.
  assert (Z : (inner (vzero m : cvec) r : Cx) = (0, 0)).
  { clear. revert r. induction m as [|m IH]; intros [|c r]; try reflexivity.
    change (Cmul (Cconj (0, 0)) c +c (inner (vzero m : cvec) r : Cx) = (0, 0)). rewrite IH. generalize (c : Cx). unfold Cconj. intros. cx. }
  induction x as [|p x IH]; intros [|c cols] H; try exact Z.
  assert (H' : forall d, In d cols -> length d = m /\ (inner d r : Cx) = (0, 0)) by (intros; apply H; now right).
  change (@Vec.lincomb Cs m (p :: x) (c :: cols)) with (vadd (vscale (p : Cs) c) (@Vec.lincomb Cs m x cols)).
  destruct (H c (or_introl eq_refl)) as [Lc Ec].
  rewrite inner_add_l1; [|rewrite vscale_length, clc_len by (intros d Hd; now apply H'); exact Lc].
  rewrite IH by exact H'. rewrite inner_scale_l. change (smul (star (p : Cs)) (inner c r : Cs)) with (Cmul (Cconj p) (inner c r : Cx)).
  rewrite Ec. generalize (p : Cx). unfold Cconj. intros. cx.
Qed.
Lemma orth_best m Phi y K s : has_rows m Phi -> length y = m -> mconsistent m Phi y K s ->
  (forall i, In i (ms_I s) -> (inner (nth i Phi []) (ms_r s) : Cx) = (0, 0)) -> best_on_support m Phi y K s.
Proof.
  intros HP Ly C O z Lz. pose proof (mcons_len HP Ly C) as Lr. destruct C as (C1 & C2 & C3 & C4 & C5).
  assert (Hc : forall c, In c (mcols Phi (ms_I s)) -> length c = m /\ (inner c (ms_r s) : Cx) = (0, 0)).
  { intros c Hc. split; [exact (@mcols_len m Phi HP _ C2 c Hc)|]. apply in_map_iff in Hc as (i & <- & Hi). now apply O. }
  unfold combine_columns in *. fold (mcols Phi (ms_I s)) in *.
  set (Z := @Vec.lincomb Cs m z (mcols Phi (ms_I s))). set (X := @Vec.lincomb Cs m (ms_x s) (mcols Phi (ms_I s))) in *.
  assert (LZ : length Z = m) by (apply clc_len; intros c H; now apply Hc). assert (LX : length X = m) by (apply clc_len; intros c H; now apply Hc).
  set (w := vadd Z (vscale ((-1, 0) : Cs) X)). assert (LW : length (vscale ((-1, 0) : Cs) X) = m) by (rewrite vscale_length; exact LX).
  assert (E : vsub y Z = vsub (ms_r s) (vscale (ofR 1 : Cs) w)).
  { rewrite C4. unfold w. revert LZ LX. rewrite <- Ly. generalize Z X. clear.
    induction y as [|a y IH]; intros [|b Z] [|c X] L1 L2; try discriminate; [reflexivity|].
    change ((Csub a b : Cs) :: vsub y Z = (Csub (Csub a c) (Cmul (1, 0) (Cadd b (Cmul (-1, 0) c))) : Cs) :: vsub (vsub y X) (vscale (ofR 1 : Cs) (vadd Z (vscale ((-1, 0) : Cs) X)))).
    rewrite <- IH by (first [exact (eq_add_S _ _ L1)|exact (eq_add_S _ _ L2)]). f_equal. generalize (a : Cx) (b : Cx) (c : Cx). intros. cx. }
  assert (W : (inner w (ms_r s) : Cx) = (0, 0)).
  { unfold w. rewrite inner_add_l1 by (rewrite LW; exact LZ). rewrite inner_scale_l. change (smul (star ((-1, 0) : Cs)) (inner X (ms_r s) : Cs)) with (Cmul (Cconj (-1, 0)) (inner X (ms_r s) : Cx)).
    unfold Z, X. rewrite !inner_lin_orth by exact Hc. unfold Cconj. cbn [fst snd]. cx. }
  assert (Lw : length w = m) by (apply vadd_length; [exact LZ|exact LW]).
  rewrite E, (@cnsq_line m (ms_r s) w 1 Lr Lw), W. cbn [fst]. pose proof (cnsq_nonneg w). lra.
Qed.
Lemma omp_real m Phi y K solve_L spd csqrt : has_rows m Phi -> real_entries Phi -> (forall a, In a Phi -> cnsq a = 1) -> Phi <> [] -> length y = m ->
  (forall z, Cmul (csqrt z) (csqrt z) = z) ->
  (forall j, (j < K - 1)%nat -> solves_lower solve_L (mo_L (Nat.iter j (momp_step solve_L spd csqrt Phi y) (momp_init Phi y)))) ->
  (forall L b, length (spd L b) = length b) ->
  solves_gram spd (mo_L (Nat.iter (K - 1) (momp_step solve_L spd csqrt Phi y) (momp_init Phi y))) ->
  (2 <= K)%nat -> exists s, momp solve_L spd csqrt Phi y K = Done s /\
    (forall i, In i (ms_I s) -> (inner (nth i Phi []) (ms_r s) : Cx) = (0, 0)) /\ best_on_support m Phi y K s.
Proof.
  intros HP HR HU HN Ly Hq H1 H2 H3 HK. unfold momp. destruct (Nat.ltb_spec K 2); [lia|]. eexists. split; [reflexivity|].
  destruct (@momp_ok m Phi y solve_L spd csqrt HP HN Ly H2 (K - 1)) as [C _]. cbv zeta in C. replace (S (K - 1)) with K in C by lia.
  assert (HB : forall a, In a Phi -> bp a a = (1, 0)).
  { intros a Ha. unfold bp. rewrite dotu_real by (now apply HR). rewrite inner_self. now rewrite HU. }
  destruct (@omp_bilinear m Phi y solve_L spd csqrt HP HN Ly HB Hq (K - 1)) as [_ O].
  - intros j Hj. exact (H1 j Hj).
  - intros _. exact H3.
  - assert (O' : forall i, In i (ms_I (mo_sol (Nat.iter (K - 1) (momp_step solve_L spd csqrt Phi y) (momp_init Phi y)))) ->
      (inner (nth i Phi []) (ms_r (mo_sol (Nat.iter (K - 1) (momp_step solve_L spd csqrt Phi y) (momp_init Phi y)))) : Cx) = (0, 0)).
    { intros i Hi. rewrite <- dotu_real; [exact (O i Hi)|]. apply HR, nth_In. now apply C. }
    split; [exact O'|]. now apply orth_best.
Qed.
