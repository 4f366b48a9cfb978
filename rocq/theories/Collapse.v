(** C73: a collapsed initial population never moves. *)
From Coq Require Import Reals Lra Permutation.
From Verif Require Import Base Num NumR NumE Env Common DE CPSO NA Hoare EvalRules Gen Steps Hist Runs Best
  Inst HistFacts HistBest PropPop Laws Safe Feas FeasPso CmaStop Trial Restart Explore Flight Replay Keeps Dims Hull.
Local Open Scope nat_scope.

Section Collapse.
  Context {E : Env ENum} (HE : EnvOK).

  (** all points are [x] *)
  Definition AllAt (x : list R) (l : list (list er * er)) : Prop := Forall (fun e => fst e = map Fin x) l.

  Lemma all_agree x l j : AllAt x l -> Agree j (nth j x 0%R) l.
  Proof.
    apply Forall_impl. intros e ->. change (Fin 0) with ((fun r => Fin r) 0%R). apply (map_nth Fin).
  Qed.
  Lemma agree_all x (l : list (list er * er)) d : length x = d -> (forall e, In e l -> length (fst e) = d) ->
    (forall j, j < d -> Agree j (nth j x 0%R) l) -> AllAt x l.
  Proof.
    intros Hx Hl HA. apply Forall_forall. intros e He. apply (nth_ext _ _ (Fin 0) (Fin 0)).
    - rewrite map_length, (Hl e He). auto.
    - intros j Hj. rewrite (Hl e He) in Hj. pose proof (HA j Hj) as H. unfold Agree in H. rewrite Forall_forall in H.
      rewrite (map_nth Fin). apply (H e He).
  Qed.

  Theorem C73_collapsed_de A (rows : list (list er)) w a0 res st' (x : list R) :
    a_bounds (dea A) = D2 2 rows -> (forall v, a_x0 (dea A) = Some v -> nd_wf v) ->
    a_backend (dea A) <> Some "mpi"%string -> a_constraints (dea A) = None -> length x = length rows ->
    exec (de_minimize A) w a0 = (inl res, st') ->
    AllAt x (firstn (Z.to_nat (a_popsize (dea A))) (evals (tr st'))) ->
    AllAt x (evals (tr st')) /\ forall j, j < length rows -> nth j (r_x res) (Fin 0) = Fin (nth j x 0%R).
  Proof.
    intros Hb Hwf Hm Hc Hl Hx HQ.
    assert (HA : forall j, j < length rows -> Agree j (nth j x 0%R) (evals (tr st')) /\ nth j (r_x res) (Fin 0) = Fin (nth j x 0%R)).
    { intros j Hj. apply (C73_frozen_de HE A rows w a0 res st' j (nth j x 0%R) Hb Hwf Hm Hj); auto.
      - rewrite Hc. congruence.
      - apply all_agree, HQ. }
    split; [|intros j Hj; apply HA, Hj].
    apply (agree_all x _ (length rows) Hl); [|intros j Hj; apply HA, Hj].
    intros e He. destruct (C52_de HE A w a0 _ _ Hwf Hx) as [HD _]. rewrite Hb in HD. apply HD, points_of_evals, He.
  Qed.
  Theorem C73_collapsed_cpso A (rows : list (list er)) w a0 res st' (x : list R) :
    a_bounds (pa A) = D2 2 rows -> (forall v, a_x0 (pa A) = Some v -> nd_wf v) ->
    a_backend (pa A) <> Some "mpi"%string -> a_constraints (pa A) = None -> truthy (pa_competitivity A) = None ->
    length x = length rows ->
    exec (cpso_minimize A) w a0 = (inl res, st') ->
    AllAt x (firstn (Z.to_nat (a_popsize (pa A))) (evals (tr st'))) ->
    AllAt x (evals (tr st')) /\ forall j, j < length rows -> nth j (r_x res) (Fin 0) = Fin (nth j x 0%R).
  Proof.
    intros Hb Hwf Hm Hc Hn Hl Hx HQ.
    assert (HA : forall j, j < length rows -> Agree j (nth j x 0%R) (evals (tr st')) /\ nth j (r_x res) (Fin 0) = Fin (nth j x 0%R)).
    { intros j Hj. apply (C73_frozen_cpso HE A rows w a0 res st' j (nth j x 0%R) Hb Hwf Hm Hn Hj); auto.
      - rewrite Hc. congruence.
      - apply all_agree, HQ. }
    split; [|intros j Hj; apply HA, Hj].
    apply (agree_all x _ (length rows) Hl); [|intros j Hj; apply HA, Hj].
    intros e He. destruct (C52_cpso HE A w a0 _ _ Hwf Hx) as [HD _]. rewrite Hb in HD. apply HD, points_of_evals, He.
  Qed.
End Collapse.
