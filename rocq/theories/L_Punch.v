(** Lemmas for MC2010 punching, interfaces and bond. *)
From Coq Require Import String ZArith Lra Lia.
From Verif Require Import Base M_Registry M_Calc S_Calc L_Calc M_Crack L_Crack M_Punch.
Open Scope R_scope.
Open Scope list_scope.

Lemma bo_table_spec bond a b :
  (forall s, bond = PStr s -> same_word "good" s = true -> bo_table bond a b = Ok a) /\ (forall s, bond = PStr s -> same_word "other" s = true -> bo_table bond a b = Ok b) /\
  ((forall s, bond = PStr s -> same_word "good" s = false /\ same_word "other" s = false) -> bo_bond bond = Err ValueError /\ bo_table bond a b = Err ValueError).
Proof.
  unfold bo_table, bo_bond, bo_valid. split; [|split].
  - intros s -> H. apply (word_lower "good") in H. rewrite H. reflexivity.
  - intros s -> H. apply (word_lower "other") in H. rewrite H. reflexivity.
  - intros H. destruct bond as [s|]; [|split; reflexivity]. destruct (H s eq_refl) as [A B]. assert (N : one_of (lower s) ["good"; "other"]%string = false).
    { apply Bool.not_true_iff_false. rewrite one_of_spec. intros [E|[E|[]]]; [assert (same_word "good" s = true) by (apply (word_lower "good"); symmetry; exact E)|assert (same_word "other" s = true) by (apply (word_lower "other"); symmetry; exact E)]; congruence. }
    rewrite N. split; reflexivity.
Qed.
Lemma bo_valid_spec l v : Forall (fun w => lower w = w) l -> (forall w s, In w l -> v = PStr s -> same_word w s = true -> bo_valid l v = Ok w) /\
  ((forall w s, In w l -> v = PStr s -> same_word w s = false) -> bo_valid l v = Err ValueError).
Proof.
  intros F. rewrite Forall_forall in F. unfold bo_valid. split.
  - intros w s I -> H. apply word_lower in H. rewrite (F w I) in H. rewrite H. rewrite (proj2 (one_of_spec w l) I). reflexivity.
  - intros H. destruct v as [s|]; [|reflexivity]. assert (N : one_of (lower s) l = false); [|rewrite N; reflexivity]. apply Bool.not_true_iff_false. rewrite one_of_spec. intros I. assert (same_word (lower s) s = true) by (apply word_lower; symmetry; apply F, I). rewrite (H _ s I eq_refl) in H0. discriminate.
Qed.
