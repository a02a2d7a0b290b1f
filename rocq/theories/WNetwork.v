(** A concrete instance of the library parameter of remove_double_counting (std::sort), used to
    show that the hypothesis [sorter_ok] is satisfiable and to run examples. *)
From Verif Require Import Base BaseFacts MNetwork SNetwork.
From Coq Require Import Permutation Sorting.Sorted.

Fixpoint ins (keys : list nat) (i : nat) (l : list nat) : list nat :=
  match l with
  | [] => [i]
  | j :: t => if nth i keys 0 <=? nth j keys 0 then i :: l else j :: ins keys i t
  end.

Definition isort (keys : list nat) : list nat :=
  fold_right (ins keys) [] (seq 0 (length keys)).

Lemma ins_perm keys i l : Permutation (ins keys i l) (i :: l).
Proof.
  induction l as [|j l IH]; cbn; auto. destruct (_ <=? _); auto.
  eapply Permutation_trans; [apply perm_skip, IH|constructor].
Qed.

Lemma ins_sorted keys i l :
  Sorted le (map (fun i => nth i keys 0) l) -> Sorted le (map (fun i => nth i keys 0) (ins keys i l)).
Proof.
  induction l as [|j l IH]; cbn; intros H; [repeat constructor|].
  destruct (Nat.leb_spec (nth i keys 0) (nth j keys 0)) as [E|E]; cbn.
  - constructor; auto.
  - inversion H as [|? ? H1 H2]; subst. constructor; auto.
    destruct l as [|k l]; cbn; [constructor; lia|].
    cbn in H2. inversion H2; subst.
    destruct (nth i keys 0 <=? nth k keys 0); cbn; constructor; lia.
Qed.

Lemma isort_ok : sorter_ok isort.
Proof.
  intros keys. unfold isort. generalize (seq 0 (length keys)) as l.
  induction l as [|i l [IH1 IH2]]; cbn.
  - split; constructor.
  - split; [|now apply ins_sorted].
    eapply Permutation_trans; [apply ins_perm|now constructor].
Qed.
