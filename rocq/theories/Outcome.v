(** Results of calling a C++ function: a value, an exception, or undefined
    behaviour. *)
From Coq Require Import List String.
Import ListNotations.

(** assertions.hpp:50-61 ([assert::default_error], thrown by every F_ASSERT) and
    qp.hpp:331-333 ([FailedFactorization]). [JsonError] stands for the exceptions of nlohmann::json
    (type_error, out_of_range) thrown while reading serialised outputs, see Json.v. The string identifies the assertion;
    it stands for the message text, which is not modelled. *)
Inductive exn : Type :=
| AssertFailed (where_ : string)
| FailedFactorization
| JsonError (what : string).

Inductive outcome (A : Type) : Type :=
| Ok (a : A)
| Throw (e : exn)
| UB (why : string).
Arguments Ok {A} _.
Arguments Throw {A} _.
Arguments UB {A} _.

Definition bind {A B : Type} (m : outcome A) (k : A -> outcome B) : outcome B :=
  match m with
  | Ok a => k a
  | Throw e => Throw e
  | UB w => UB w
  end.

(** F_ASSERT(cond), assertions.hpp:69-74 *)
Definition f_assert (c : bool) (w : string) : outcome unit :=
  if c then Ok tt else Throw (AssertFailed w).

(** A memory-safety side condition of the C++ code that nothing checks in release builds. *)
Definition ub_unless (c : bool) (w : string) : outcome unit :=
  if c then Ok tt else UB w.

Declare Scope outcome_scope.
Delimit Scope outcome_scope with outcome.
Notation "'do' x <- m ; k" := (bind m (fun x => k))
  (at level 200, x name, m at level 100, k at level 200) : outcome_scope.
Notation "'do' ' p <- m ; k" := (bind m (fun x => match x with p => k end))
  (at level 200, p pattern, m at level 100, k at level 200) : outcome_scope.
Notation "m ;; k" := (bind m (fun _ => k))
  (at level 100, k at level 200, right associativity) : outcome_scope.

(** Sequential loop that may fail: fold with an outcome accumulator. *)
Fixpoint ofold {A B : Type} (f : A -> B -> outcome A) (l : list B) (a : A) : outcome A :=
  match l with
  | [] => Ok a
  | b :: l' => bind (f a b) (ofold f l')
  end.

Lemma bind_ok_inv : forall (A B : Type) (m : outcome A) (k : A -> outcome B) (b : B),
  bind m k = Ok b -> exists a, m = Ok a /\ k a = Ok b.
Proof. intros A B [a|e|w] k b H; simpl in H; try discriminate; eauto. Qed.

Lemma f_assert_ok_inv : forall c w u, f_assert c w = Ok u -> c = true.
Proof. intros [|] w u H; [reflexivity | discriminate]. Qed.

Lemma ub_unless_ok_inv : forall c w u, ub_unless c w = Ok u -> c = true.
Proof. intros [|] w u H; [reflexivity | discriminate]. Qed.

(** Decompose a successful monadic run hypothesis. *)
Ltac inv_bind H :=
  let a := fresh "a" in let H1 := fresh "Hm" in
  apply bind_ok_inv in H; destruct H as [a [H1 H]].

Lemma Ok_inj : forall (A : Type) (a b : A), Ok a = Ok b -> a = b.
Proof. intros A a b H. injection H. auto. Qed.
Lemma pair_inj : forall (A B : Type) (a a' : A) (b b' : B), (a, b) = (a', b') -> a = a' /\ b = b'.
Proof. intros A B a a' b b' H. injection H. auto. Qed.

Ltac splits := repeat match goal with |- _ /\ _ => split end.

(** Turn [Ok (a, b, ..) = Ok (a', b', ..)] into equations without computing anything. *)
Ltac inj_pairs H :=
  match type of H with
  | (_, _) = (_, _) =>
      let H1 := fresh "E" in let H2 := fresh "E" in
      apply pair_inj in H; destruct H as [H1 H2]; inj_pairs H1
  | _ => idtac
  end.
Ltac inj_ok H := apply Ok_inj in H; inj_pairs H.

Lemma ofold_invariant :
  forall (A B : Type) (f : A -> B -> outcome A) (P : list B -> A -> Prop),
  forall l a0 a',
    ofold f l a0 = Ok a' ->
    P [] a0 ->
    (forall done x a a1, (exists rest, l = done ++ x :: rest) ->
        P done a -> f a x = Ok a1 -> P (done ++ [x]) a1) ->
    P l a'.
Proof.
  intros A B f P l a0 a' Hrun H0 Hstep.
  assert (Gen : forall rest done a, l = done ++ rest -> P done a ->
            ofold f rest a = Ok a' -> P l a').
  { induction rest as [|x rest IH]; intros done a Hl HP Hr; simpl in Hr.
    - inversion Hr; subst. rewrite app_nil_r. exact HP.
    - inv_bind Hr. apply (IH (done ++ [x]) a1).
      + rewrite <- app_assoc. exact Hl.
      + eapply Hstep; eauto.
      + exact Hr. }
  apply (Gen l [] a0); auto.
Qed.
