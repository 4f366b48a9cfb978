(** An environment over any arithmetic: the contracts of the theorems (EnvOK, EighRows) can be met,
    in particular over the extended reals, where nothing can be computed. *)
From Coq Require Import Sorting.Sorted.
From Verif Require Import Base Num Env Common DE CPSO NA Hoare EvalRules Gen Steps Hist Runs Best Inst
  DimCma.

Section Plain.
  Context {N : Num} {HO : OrdLaws num_arith}.

  Fixpoint p_insert (f : vec) (i : nat) (l : list nat) : list nat :=
    match l with
    | [] => [i]
    | j :: t => if nleb (nth i f n0) (nth j f n0) then i :: l else j :: p_insert f i t
    end.
  Fixpoint p_isort (f : vec) (l : list nat) : list nat :=
    match l with [] => [] | i :: t => p_insert f i (p_isort f t) end.

  Lemma p_insert_perm f i l : Permutation (p_insert f i l) (i :: l).
  Proof.
    induction l as [|j t IH]; cbn; [reflexivity|].
    destruct (nleb _ _); [reflexivity|]. rewrite IH. apply perm_swap.
  Qed.
  Lemma p_isort_perm f l : Permutation (p_isort f l) l.
  Proof. induction l as [|i t IH]; cbn; [reflexivity|]. rewrite p_insert_perm, IH. reflexivity. Qed.

  Definition p_sorted (f : vec) (l : list nat) : Prop :=
    StronglySorted (fun i j => nleb (nth i f n0) (nth j f n0) = true) l.
  Lemma p_insert_sorted f i l :
    i < length f -> Forall (fun j => j < length f) l -> Forall isnum f ->
    p_sorted f l -> p_sorted f (p_insert f i l).
  Proof.
    intros Hi Hl Hn H. assert (Hnum : forall j, j < length f -> isnum (nth j f n0)).
    { intros j Hj. rewrite Forall_forall in Hn. apply Hn, nth_In, Hj. }
    induction H as [|j t Ht IH Hj]; cbn; [repeat constructor|].
    inversion Hl as [|? ? Hl1 Hl2]; subst. destruct (nleb (nth i f n0) (nth j f n0)) eqn:E.
    - constructor; [constructor; auto|]. constructor; [exact E|].
      eapply Forall_impl; [|exact Hj]. cbn. intros k Hk. eapply ol_le_trans; eauto.
    - constructor; [apply IH, Hl2|]. apply Forall_forall. intros k Hk.
      apply (Permutation_in _ (p_insert_perm f i t)) in Hk. destruct Hk as [<-|Hk].
      + apply ol_lt_le. apply nle_lt; auto.
      + rewrite Forall_forall in Hj. apply Hj, Hk.
  Qed.
  Lemma p_isort_sorted f l :
    Forall (fun j => j < length f) l -> Forall isnum f -> p_sorted f (p_isort f l).
  Proof.
    intros Hl Hn. induction l as [|i t IH]; cbn; [constructor|].
    inversion Hl; subst. apply p_insert_sorted; auto. apply Forall_forall. intros j Hj.
    apply (Permutation_in _ (p_isort_perm f t)) in Hj. rewrite Forall_forall in *. auto.
  Qed.

  (** [u]: the uniform numbers to come; [f]: a pure objective; [g]: the eigenvectors are any square
      matrix. *)
  Definition PlainEnv (u : nat -> T) (f : vec -> T) : Env N :=
    @mkEnv N nat unit
       (fun _ => 0)
       (fun k => (u k, S k)) (fun k => (u k, S k)) (fun n k => (seq 0 n, S k)) (fun n k => (0, S k))
       (fun x w => (inl (f x), w))
       (fun _ _ w => (None, w)) (fun _ _ w => (None, w))
       (fun n _ => rev (seq 0 n))
       0 1 (fun _ X => X) (fun _ _ f => f)
       (fun v => p_isort v (seq 0 (length v)))
       (fun v _ => nth 0 v n0) (fun v => nth 0 v n0)
       (fun C => Some (map (fun _ => n1) C, C)) (fun n => repeat n0 n).

  Lemma StronglySorted_nth {A} (R : A -> A -> Prop) l d :
    StronglySorted R l -> forall a b, a < b -> b < length l -> R (nth a l d) (nth b l d).
  Proof.
    induction 1 as [|x l Hs IH Hx]; intros a b Hab Hb; cbn in Hb; [lia|].
    destruct b as [|b]; [lia|]. destruct a as [|a]; cbn.
    - rewrite Forall_forall in Hx. apply Hx, nth_In. lia.
    - apply IH; lia.
  Qed.

  Theorem PlainEnv_OK u f :
    (forall k, nleb n0 (u k) = true /\ nltb (u k) n1 = true) -> @EnvOK N (PlainEnv u f).
  Proof.
    intros Hu. constructor.
    - intros n w. cbn. symmetry. apply Permutation_rev.
    - split; intros; reflexivity.
    - split.
      + intros v. apply p_isort_perm.
      + intros v Hv a b Hab Hb. cbn.
        apply (StronglySorted_nth (fun i j => nleb (nth i v n0) (nth j v n0) = true)); [|exact Hab|].
        * apply p_isort_sorted; [|exact Hv]. apply Forall_forall. intros j Hj. apply in_seq in Hj. lia.
        * rewrite (Permutation_length (p_isort_perm _ _)), seq_length. exact Hb.
    - intros r. apply Hu.
    - intros n r. reflexivity.
    - intros n r Hn. exact Hn.
  Qed.
  Theorem PlainEnv_Eigh u f : @EighRows N (PlainEnv u f).
  Proof. intros C D B H. cbn in H. injection H as <- <-. reflexivity. Qed.
End Plain.
