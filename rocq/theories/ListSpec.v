(** * Small list vocabulary used in statements. *)
From Coq Require Import List Arith Lia.
Import ListNotations.

Fixpoint increasing (l : list nat) : Prop :=
  match l with
  | [] => True
  | x :: l' => (forall y, In y l' -> x < y) /\ increasing l'
  end.

Lemma increasing_filter_seq : forall f n i, increasing (filter f (seq i n)).
Proof.
  intros f n. induction n as [|n IH]; intros i; simpl; [exact I|].
  destruct (f i); [|apply IH]. simpl. split; [|apply IH].
  intros y Hy. apply filter_In in Hy. destruct Hy as [Hy _]. apply in_seq in Hy. lia.
Qed.
