(** Scalars.  The library works on real and complex arrays (dtype float /
    complex).  Operators are modelled once over a field with a conjugation
    containing the reals, and instantiated with the reals and the complex
    numbers.  Floating point rounding is not modelled. *)
From Coq Require Import Reals Lra Field List.
Local Open Scope R_scope.

Record scalar := Scalar {
  car :> Type;
  s0 : car; s1 : car;
  sadd : car -> car -> car;
  smul : car -> car -> car;
  ssub : car -> car -> car;
  sopp : car -> car;
  sdiv : car -> car -> car;
  sinv : car -> car;
  (* jnp.conjugate *)
  star : car -> car;
  (* real constants appearing in the code *)
  ofR : R -> car;
  (* jnp.real, viewed as a scalar of the same type *)
  sre : car -> car;
  s_field : field_theory s0 s1 sadd smul ssub sopp sdiv sinv (@eq car);
  star_add : forall a b, star (sadd a b) = sadd (star a) (star b);
  star_mul : forall a b, star (smul a b) = smul (star a) (star b);
  star_star : forall a, star (star a) = a;
  ofR_0 : ofR 0 = s0;
  ofR_1 : ofR 1 = s1;
  ofR_add : forall a b, ofR (a + b) = sadd (ofR a) (ofR b);
  ofR_mul : forall a b, ofR (a * b) = smul (ofR a) (ofR b);
  ofR_star : forall a, star (ofR a) = ofR a;
  ofR_inj : forall a b, ofR a = ofR b -> a = b
}.

Arguments s0 {_}. Arguments s1 {_}. Arguments sadd {_}. Arguments smul {_}.
Arguments ssub {_}. Arguments sopp {_}. Arguments sdiv {_}. Arguments sinv {_}.
Arguments star {_}. Arguments ofR {_}. Arguments sre {_}.

Declare Scope scal_scope.
Delimit Scope scal_scope with S.
Notation "a + b" := (sadd a b) : scal_scope.
Notation "a * b" := (smul a b) : scal_scope.
Notation "a - b" := (ssub a b) : scal_scope.
Notation "- a" := (sopp a) : scal_scope.
Notation "a / b" := (sdiv a b) : scal_scope.

Definition s_ring (K : scalar) := F_R (s_field K).

Section Derived.
  Variable K : scalar.
  Add Field Kfield : (s_field K).
  Local Open Scope scal_scope.

  Lemma star_0 : star (@s0 K) = s0.
  Proof.
    assert (H : star (@s0 K) + star (@s0 K) = star s0)
      by (rewrite <- star_add; f_equal; ring).
    assert (H2 : (star (@s0 K) + star s0) - star s0 = star s0 - star s0) by now rewrite H.
    transitivity ((star (@s0 K) + star s0) - star s0); [ring | rewrite H2; ring].
  Qed.

  Lemma star_1 : star (@s1 K) = s1.
  Proof. now rewrite <- (ofR_1 K), ofR_star. Qed.

  Lemma star_opp (a : K) : star (- a) = - star a.
  Proof.
    assert (H : star (- a) + star a = s0).
    { rewrite <- star_add. replace (- a + a) with (@s0 K) by ring. apply star_0. }
    transitivity (star (- a) + star a - star a); [ring | rewrite H; ring].
  Qed.

  Lemma star_sub (a b : K) : star (a - b) = star a - star b.
  Proof.
    replace (a - b) with (a + - b) by ring.
    rewrite star_add, star_opp; ring.
  Qed.

  Lemma star_inj (a b : K) : star a = star b -> a = b.
  Proof. intros H; rewrite <- (star_star K a), H; apply star_star. Qed.

  Lemma ofR_opp a : @ofR K (Ropp a) = - ofR a.
  Proof.
    assert (H : @ofR K (Ropp a) + ofR a = s0).
    { rewrite <- ofR_add. replace (Rplus (Ropp a) a) with 0%R by lra. apply ofR_0. }
    transitivity (@ofR K (Ropp a) + ofR a - ofR a); [ring | rewrite H; ring].
  Qed.

  Lemma ofR_neq0 a : a <> 0%R -> @ofR K a <> s0.
  Proof. intros H E. apply H. apply (ofR_inj K). now rewrite ofR_0. Qed.

  Lemma star_inv (a : K) : a <> s0 -> star (sinv a) = sinv (star a).
  Proof.
    intros H.
    assert (Hs : star a <> s0).
    { intros E. apply H. apply star_inj. now rewrite E, star_0. }
    assert (E : star (sinv a) * star a = s1).
    { rewrite <- star_mul. replace (sinv a * a) with (@s1 K) by (field; auto). apply star_1. }
    transitivity (star (sinv a) * star a * sinv (star a)); [field; auto | rewrite E; ring].
  Qed.
End Derived.

(** Real scalars. *)
Definition Rs : scalar.
Proof.
  refine {| car := R; s0 := 0; s1 := 1; sadd := Rplus; smul := Rmult; ssub := Rminus;
            sopp := Ropp; sdiv := Rdiv; sinv := Rinv; star := fun a => a;
            ofR := fun a => a; sre := fun a => a |}; auto.
  exact (Rfield).
Defined.

(** Complex scalars: pairs (re, im). *)
Definition Cx := (R * R)%type.
Definition Cadd (a b : Cx) : Cx := (fst a + fst b, snd a + snd b).
Definition Cmul (a b : Cx) : Cx :=
  (fst a * fst b - snd a * snd b, fst a * snd b + snd a * fst b).
Definition Copp (a : Cx) : Cx := (- fst a, - snd a).
Definition Csub (a b : Cx) : Cx := (fst a - fst b, snd a - snd b).
Definition Cconj (a : Cx) : Cx := (fst a, - snd a).
Definition Cnsq (a : Cx) : R := fst a * fst a + snd a * snd a.
Definition Cinv (a : Cx) : Cx := (fst a / Cnsq a, - snd a / Cnsq a).
Definition Cdiv (a b : Cx) : Cx := Cmul a (Cinv b).

Lemma Cnsq_neq0 a : a <> (0, 0) -> Cnsq a <> 0.
Proof.
  destruct a as [x y]; unfold Cnsq; simpl; intros H E.
  pose proof (Rle_0_sqr x) as Hx; pose proof (Rle_0_sqr y) as Hy; unfold Rsqr in *.
  assert (x * x = 0) by lra. assert (y * y = 0) by lra.
  apply H. f_equal; [destruct (Rmult_integral _ _ H0) | destruct (Rmult_integral _ _ H1)]; auto.
Qed.

Lemma C_field : field_theory (0, 0) (1, 0) Cadd Cmul Csub Copp Cdiv Cinv (@eq Cx).
Proof.
  constructor.
  - constructor; intros; unfold Cadd, Cmul, Csub, Copp;
      repeat match goal with a : Cx |- _ => destruct a end; apply injective_projections; simpl; ring.
  - intros E. inversion E. lra.
  - reflexivity.
  - intros a H. pose proof (Cnsq_neq0 a H) as Hn. destruct a as [x y].
    unfold Cmul, Cinv, Cnsq in *; simpl in *. f_equal; field; auto.
Qed.

Definition Cs : scalar.
Proof.
  refine {| car := Cx; s0 := (0,0); s1 := (1,0); sadd := Cadd; smul := Cmul; ssub := Csub;
            sopp := Copp; sdiv := Cdiv; sinv := Cinv; star := Cconj;
            ofR := fun a => (a, 0); sre := fun a => (fst a, 0) |}.
  - exact C_field.
  - intros [a1 a2] [b1 b2]; unfold Cconj, Cadd; simpl; f_equal; ring.
  - intros [a1 a2] [b1 b2]; unfold Cconj, Cmul; simpl; f_equal; ring.
  - intros [a1 a2]; unfold Cconj; simpl; f_equal; ring.
  - reflexivity.
  - reflexivity.
  - intros; unfold Cadd; simpl; f_equal; ring.
  - intros; unfold Cmul; simpl; f_equal; ring.
  - intros; unfold Cconj; simpl; f_equal; ring.
  - intros a b H; now inversion H.
Defined.
