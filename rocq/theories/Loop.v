(** lax.while_loop: state, condition, body.  The body may fail (an exception, or
    a division by zero that would put NaN in the state); [Fuel] is returned only
    when the given number of iterations did not suffice. *)
From Coq Require Import List Arith Bool Lia Reals Lra.
Import ListNotations.
Set Implicit Arguments.

Inductive outcome (S : Type) := Done (s : S) | Fail | Fuel.
Arguments Done {S}. Arguments Fail {S}. Arguments Fuel {S}.

Section Loop.
  Variable S : Type.
  Variable cond : S -> bool.
  Variable body : S -> option S.
  Fixpoint while_ (fuel : nat) (s : S) : outcome S :=
    if cond s then
      match fuel with
      | 0 => Fuel
      | Datatypes.S f => match body s with None => Fail | Some s' => while_ f s' end
      end
    else Done s.

  Lemma while_inv (P : S -> Prop) :
    (forall s s', P s -> cond s = true -> body s = Some s' -> P s') ->
    forall fuel s s', P s -> while_ fuel s = Done s' -> P s' /\ cond s' = false.
  Proof.
    intros HP. induction fuel as [|f IH]; intros s s' Hs; simpl.
    - destruct (cond s) eqn:E; [discriminate|]. intros [= <-]. auto.
    - destruct (cond s) eqn:E; [|intros [= <-]; auto].
      destruct (body s) as [s1|] eqn:B; [|discriminate]. apply IH. eauto.
  Qed.

  (** enough fuel: a natural number that strictly decreases *)
  Lemma while_term (mu : S -> nat) (P : S -> Prop) :
    (forall s, P s -> cond s = true -> 0 < mu s) ->
    (forall s s', P s -> cond s = true -> body s = Some s' -> P s' /\ mu s' < mu s) ->
    forall fuel s, P s -> mu s <= fuel -> while_ fuel s <> Fuel.
  Proof.
    intros H0 HP. induction fuel as [|f IH]; intros s Hs Hm; simpl.
    - destruct (cond s) eqn:E; [|discriminate]. specialize (H0 s Hs E). lia.
    - destruct (cond s) eqn:E; [|discriminate].
      destruct (body s) as [s1|] eqn:B; [|discriminate].
      destruct (HP s s1 Hs E B). apply IH; auto. lia.
  Qed.

  (** a body that never fails *)
  Lemma while_nofail (P : S -> Prop) :
    (forall s, P s -> cond s = true -> exists s', body s = Some s' /\ P s') ->
    forall fuel s, P s -> while_ fuel s <> Fail.
  Proof.
    intros HP. induction fuel as [|f IH]; intros s Hs; simpl; destruct (cond s) eqn:E; try discriminate.
    destruct (HP s Hs E) as [s' [B Hs']]. rewrite B. auto.
  Qed.

  (** more fuel does not change the answer *)
  Lemma while_fuel_mono : forall fuel s s', while_ fuel s = Done s' ->
    forall fuel', fuel <= fuel' -> while_ fuel' s = Done s'.
  Proof.
    induction fuel as [|f IH]; intros s s' H fuel' Hf; simpl in H.
    - destruct (cond s) eqn:E; [discriminate|]. destruct fuel'; simpl; rewrite E; auto.
    - destruct fuel' as [|f']; [lia|]. simpl. destruct (cond s) eqn:E; auto.
      destruct (body s); [|discriminate]. apply IH; auto. lia.
  Qed.

  (** the state after k iterations, when the loop gets that far *)
  Fixpoint iter (k : nat) (s : S) : option S :=
    match k with
    | 0 => Some s
    | Datatypes.S k => match iter k s with
             | Some s1 => if cond s1 then body s1 else None
             | None => None
             end
    end.
End Loop.

(** boolean comparisons of exact reals *)
Definition Rltb (x y : R) : bool := if Rlt_dec x y then true else false.
Definition Rleb (x y : R) : bool := if Rle_dec x y then true else false.
Definition Reqb (x y : R) : bool := if Req_EM_T x y then true else false.
Lemma Rltb_spec x y : reflect (x < y)%R (Rltb x y).
Proof. unfold Rltb. destruct (Rlt_dec x y); constructor; auto. Qed.
Lemma Rleb_spec x y : reflect (x <= y)%R (Rleb x y).
Proof. unfold Rleb. destruct (Rle_dec x y); constructor; auto. Qed.
Lemma Reqb_spec x y : reflect (x = y)%R (Reqb x y).
Proof. unfold Reqb. destruct (Req_EM_T x y); constructor; auto. Qed.
Lemma Rltb_true x y : Rltb x y = true <-> (x < y)%R.
Proof. destruct (Rltb_spec x y); split; intros; auto; try discriminate; contradiction. Qed.
Lemma Rleb_true x y : Rleb x y = true <-> (x <= y)%R.
Proof. destruct (Rleb_spec x y); split; intros; auto; try discriminate; contradiction. Qed.
Lemma Reqb_true x y : Reqb x y = true <-> (x = y)%R.
Proof. destruct (Reqb_spec x y); split; intros; auto; try discriminate; contradiction. Qed.
Lemma Rltb_false x y : Rltb x y = false <-> (y <= x)%R.
Proof. destruct (Rltb_spec x y); split; intros; auto; try discriminate; lra. Qed.
Lemma Rleb_false x y : Rleb x y = false <-> (y < x)%R.
Proof. destruct (Rleb_spec x y); split; intros; auto; try discriminate; lra. Qed.
Lemma Reqb_false x y : Reqb x y = false <-> (x <> y)%R.
Proof. destruct (Reqb_spec x y); split; intros; auto; try discriminate; contradiction. Qed.
