(** Vocabulary for test problems: b = Phi y, y = Psi x, A = Phi Psi. *)
From Coq Require Import List Arith Reals.
From Verif Require Import Scalar Vec LopModel ProblemModel.
Import ListNotations.

Section Spec.
  Variable K : scalar.
  (** all nonzero entries of x are at the positions s *)
  Definition supported_on (s : list nat) (x : list K) : Prop := forall i, nth i x s0 <> s0 -> In i s.
  Definition at_most_nonzero (k : nat) (x : list K) : Prop := exists s, length s <= k /\ supported_on s x.
  Definition acts_as_identity (T : operator K) : Prop := om T = on T /\ forall v, length v = on T -> times T v = v.
  (** The parts of a problem fit together: shapes, A = Phi Psi, the known
      solution x explains the measurements and reconstructs the signal y, and
      [both] is set when neither Phi nor Psi is the identity. *)
  Definition consistent (P : problem K) (x : list K) : Prop :=
    p_x P = Some x /\
    om (p_A P) = om (p_Phi P) /\ on (p_Phi P) = om (p_Psi P) /\ on (p_A P) = on (p_Psi P) /\
    length x = on (p_A P) /\ length (p_b P) = om (p_A P) /\
    (forall v, length v = on (p_Psi P) -> times (p_A P) v = times (p_Phi P) (times (p_Psi P) v)) /\
    times (p_A P) x = p_b P /\
    p_reconstruct P x = times (p_Psi P) x /\
    (forall y, p_y P = Some y -> p_reconstruct P x = y /\ times (p_Phi P) y = p_b P) /\
    (p_both P = false -> acts_as_identity (p_Phi P) \/ acts_as_identity (p_Psi P)).
  (** x stacks two vectors of length n: the values sv at the positions si of
      the first, f of the values cv at the positions ci of the second, and
      zeros elsewhere *)
  Definition spikes_and_coefficients (n : nat) (si : list nat) (sv : list K) (ci : list nat) (cv : list K) (f : K -> K) (x : list K) : Prop :=
    supported_on (si ++ map (Nat.add n) ci) x /\
    (forall p, p < length si -> nth (nth p si 0) x s0 = nth p sv s0) /\
    (forall p, p < length ci -> nth (n + nth p ci 0) x s0 = f (nth p cv s0)).
End Spec.
Arguments supported_on {K}. Arguments at_most_nonzero {K}. Arguments acts_as_identity {K}. Arguments consistent {K}. Arguments spikes_and_coefficients {K}.
(** distinct indices below n, as many as values *)
Definition draw {A : Type} (n k : nat) (idx : list nat) (values : list A) : Prop :=
  NoDup idx /\ (forall i, In i idx -> i < n) /\ length idx = k /\ length values = k.
