(** Shared vocabulary: results with explicit errors, and facts about the
    byte-wise order of strings (Rust's [Ord for str]). *)
From Coq Require Import String List Ascii Arith NArith Lia Bool.
Import ListNotations.

(** A [Result] of the compiler.  [Panic] stands for a Rust panic
    ([unwrap] on nothing, [unreachable!]); [OutOfFuel] only says that the
    recursion bound given to the model was too small. *)
Inductive res (A : Type) : Type :=
| Ok (a : A)
| NotFound (name : string)
| Panic
| OutOfFuel.
Arguments Ok {A} _.
Arguments NotFound {A} _.
Arguments Panic {A}.
Arguments OutOfFuel {A}.

Definition bind {A B} (r : res A) (f : A -> res B) : res B :=
  match r with
  | Ok a => f a
  | NotFound s => NotFound s
  | Panic => Panic
  | OutOfFuel => OutOfFuel
  end.

Definition rmap {A B} (f : A -> B) (r : res A) : res B := bind r (fun a => Ok (f a)).

(** [iter().map(f).collect::<Result<Vec<_>, _>>()] : stops at the first error. *)
Section MapM.
  Context {A B : Type}.
  Variable f : A -> res B.
  Fixpoint mapM (l : list A) : res (list B) :=
    match l with
    | [] => Ok []
    | x :: xs => bind (f x) (fun y => bind (mapM xs) (fun ys => Ok (y :: ys)))
    end.
End MapM.

Lemma bind_ok {A B} (r : res A) (f : A -> res B) b :
  bind r f = Ok b <-> exists a, r = Ok a /\ f a = Ok b.
Proof.
  split.
  - destruct r; cbn; intros H; try discriminate; eauto.
  - intros (a & -> & H). exact H.
Qed.

Lemma mapM_ok {A B} (f : A -> res B) l l' :
  mapM f l = Ok l' <-> Forall2 (fun x y => f x = Ok y) l l'.
Proof.
  revert l'. induction l as [|x xs IH]; intros l'; cbn [mapM].
  - split; intros H.
    + injection H as <-. constructor.
    + inversion H; reflexivity.
  - rewrite bind_ok. split.
    + intros (y & Hy & H). apply bind_ok in H. destruct H as (ys & Hys & H).
      injection H as <-. constructor; [exact Hy|]. apply IH. exact Hys.
    + intros H. inversion H as [|x' y xs' ys Hy Hys]; subst.
      exists y. split; [exact Hy|]. apply bind_ok. exists ys. split; [apply IH; exact Hys|reflexivity].
Qed.

(** ** Order on strings *)
Lemma ascii_compare_eq a b : Ascii.compare a b = Eq <-> a = b.
Proof.
  unfold Ascii.compare. rewrite N.compare_eq_iff. split; [|intros ->; reflexivity].
  intros H. rewrite <- (ascii_N_embedding a), <- (ascii_N_embedding b), H. reflexivity.
Qed.

Lemma string_compare_eq s t : String.compare s t = Eq <-> s = t.
Proof.
  revert t. induction s as [|a s IH]; intros [|b t]; cbn [String.compare]; try (split; congruence).
  destruct (Ascii.compare a b) eqn:Hab.
  - apply ascii_compare_eq in Hab. subst. rewrite IH. split; congruence.
  - split; [discriminate|]. intros H. injection H as -> ->.
    rewrite (proj2 (ascii_compare_eq b b) eq_refl) in Hab. discriminate.
  - split; [discriminate|]. intros H. injection H as -> ->.
    rewrite (proj2 (ascii_compare_eq b b) eq_refl) in Hab. discriminate.
Qed.

Lemma string_compare_antisym s t : String.compare s t = CompOpp (String.compare t s).
Proof. apply String.compare_antisym. Qed.

Lemma ascii_compare_trans a b c :
  Ascii.compare a b = Lt -> Ascii.compare b c = Lt -> Ascii.compare a c = Lt.
Proof.
  unfold Ascii.compare. rewrite !N.compare_lt_iff. lia.
Qed.

Lemma string_compare_trans s t u :
  String.compare s t = Lt -> String.compare t u = Lt -> String.compare s u = Lt.
Proof.
  revert t u. induction s as [|a s IH]; intros [|b t] [|c u]; cbn [String.compare]; intros H1 H2;
    try discriminate; try reflexivity.
  destruct (Ascii.compare a b) eqn:Hab; try discriminate;
  destruct (Ascii.compare b c) eqn:Hbc; try discriminate.
  - apply ascii_compare_eq in Hab, Hbc. subst.
    assert (Hc : Ascii.compare c c = Eq) by (apply ascii_compare_eq; reflexivity).
    rewrite Hc. eapply IH; eassumption.
  - apply ascii_compare_eq in Hab. subst. rewrite Hbc. reflexivity.
  - apply ascii_compare_eq in Hbc. subst. rewrite Hab. reflexivity.
  - rewrite (ascii_compare_trans _ _ _ Hab Hbc). reflexivity.
Qed.

(** ** Association lists (a [FnvHashMap<String, _>] after its insertions:
    the latest insertion is at the front). *)
Fixpoint lookup {A} (l : list (string * A)) (k : string) : option A :=
  match l with
  | [] => None
  | (k', a) :: l' => if String.eqb k k' then Some a else lookup l' k
  end.

Fixpoint mem (k : string) (l : list string) : bool :=
  match l with
  | [] => false
  | k' :: l' => String.eqb k k' || mem k l'
  end.

Lemma mem_In k l : mem k l = true <-> In k l.
Proof.
  induction l as [|x l IH]; cbn.
  - split; [discriminate|tauto].
  - rewrite orb_true_iff, IH, String.eqb_eq. split; intros [H|H]; subst; auto.
Qed.

Lemma mem_not_In k l : mem k l = false <-> ~ In k l.
Proof. rewrite <- mem_In. destruct (mem k l); split; congruence. Qed.

Lemma lookup_In {A} l k (a : A) : lookup l k = Some a -> In (k, a) l.
Proof.
  induction l as [|[k' a'] l IH]; cbn; [discriminate|].
  destruct (String.eqb_spec k k') as [->|Hne]; intros H; [injection H as ->; auto|auto].
Qed.

Lemma lookup_fst {A} l k (a : A) : lookup l k = Some a -> In k (map fst l).
Proof. intros H. apply lookup_In in H. apply (in_map fst) in H. exact H. Qed.

Lemma lookup_none {A} (l : list (string * A)) k : lookup l k = None <-> ~ In k (map fst l).
Proof.
  induction l as [|[k' a'] l IH]; cbn; [tauto|].
  destruct (String.eqb_spec k k') as [->|Hne].
  - split; [discriminate|intros H; exfalso; auto].
  - rewrite IH. split; intros H; [intros [E|E]; congruence || auto|auto].
Qed.
