(** Hypotheses about the environment (each is a fact of numpy / joblib / MPI), and the rules for
    evaluating a population. *)
From Verif Require Import Base Num Env Common Hoare.

Section EvalRules.
  Context {N : Num} {E : Env N}.

  (** joblib runs every task exactly once. *)
  Definition SchedOK : Prop := forall n w, Permutation (e_sched n w) (seq 0 n).
  (** Bcast and Allreduce keep the shape of the buffers. *)
  Definition MpiShape : Prop :=
    (forall n X, map (@length T) (e_bcast n X) = map (@length T) X) /\
    (forall n X f, length (e_allreduce n X f) = length f).
  Definition ModeOK (m : Mode) : Prop :=
    match m with Serial => True | Joblib => SchedOK | Mpi => MpiShape end.

  (** What one evaluation of the rows [X] with values [f] leaves in the trace: on one process, one
      call per row (in row order when evaluation is serial). *)
  Definition EvOK (m : Mode) (X : matrix) (X' : matrix) (f : vec) (evs : list event) : Prop :=
    m <> Mpi ->
    X' = X /\ exists l, evs = map ok l /\ Permutation l (combine X f) /\
                        (m = Serial -> l = combine X f).

  (** What an evaluation of [p] points with values [f] leaves in the trace of one MPI process: the
      points are received, the points rank, rank + size, .. are evaluated in this order, and the
      values are received.  No sampler callback is called in any mode. *)
  Definition Shares (m : Mode) (p : nat) (f : vec) (evs : list event) : Prop :=
    scbs evs = [] /\
    (m = Mpi -> exists X v, length X = p /\
       evs = EBcast X :: map ok (map (fun i => (nth i X [], nth i v n0)) (arange e_rank p e_mpisize))
               ++ [EReduce f]).

  Lemma Shares_ok m p f l : m <> Mpi -> Shares m p f (map ok l).
  Proof. split; [apply scbs_ok|congruence]. Qed.

  Lemma wp_eval_serial X (Q : vec -> St -> Prop) (Xc : Exn -> St -> Prop) s :
    (forall f s', length f = length X -> tr s' = tr s ++ map ok (combine X f) ->
                  argbuf s' = argbuf s -> Q f s') ->
    (forall n s', Xc (UserError n) s') ->
    wp (eval_serial X) Q Xc s.
  Proof.
    intros H HX. unfold eval_serial.
    eapply wp_conseq;
      [apply (wp_mapM call_fun X
               (fun done f s' => length f = length done /\
                                 tr s' = tr s ++ map ok (combine done f) /\
                                 argbuf s' = argbuf s) Xc [] [] s)| |auto].
    - cbn. rewrite app_nil_r; auto.
    - intros pre a post f s1 HX1 (Hl & Ht & Hb). cbn in *.
      apply wp_call_fun; cbn.
      + intros y w _. repeat split.
        * rewrite !app_length; cbn; lia.
        * rewrite Ht, <- app_assoc. f_equal.
          assert (Hc : combine (pre ++ [a]) (f ++ [y]) = combine pre f ++ [(a, y)]).
          { clear - Hl. revert f Hl; induction pre as [|b pre IH]; intros [|g f] Hl; cbn in *;
              try discriminate; auto. f_equal; auto. }
          rewrite Hc, map_app; reflexivity.
        * exact Hb.
      + intros n w _; apply HX.
    - cbn. intros f s' (Hl & Ht & Hb). apply H; auto.
  Qed.

  Lemma Permutation_map_nth {A} (d : A) (l : list A) (pi : list nat) :
    Permutation pi (seq 0 (length l)) -> Permutation (map (fun i => nth i l d) pi) l.
  Proof.
    intros H. rewrite (Permutation_map (fun i => nth i l d) H).
    assert (Heq : map (fun i => nth i l d) (seq 0 (length l)) = l); [|rewrite Heq; reflexivity].
    apply (list_ext d); [rewrite map_length, seq_length; reflexivity|].
    intros i Hi. rewrite map_length, seq_length in Hi.
    rewrite (nth_indep _ d (nth 0 l d)) by (rewrite map_length, seq_length; exact Hi).
    rewrite (map_nth (fun i => nth i l d)), nth_seq0 by exact Hi. reflexivity.
  Qed.

  (** Loop that fills an array at the indices [order] (each once). *)
  Lemma wp_eval_order X f0 order (Q : vec -> St -> Prop) (Xc : Exn -> St -> Prop) s :
    NoDup order -> length f0 = length X -> (forall i, In i order -> i < length X) ->
    (forall f s', length f = length X ->
        tr s' = tr s ++ map (fun i => EEval (nth i X []) (inl (nth i f n0))) order ->
        argbuf s' = argbuf s ->
        (forall i, ~ In i order -> nth i f n0 = nth i f0 n0) -> Q f s') ->
    (forall n s', Xc (UserError n) s') ->
    wp (foldM (fun f i => y <- call_fun (nth i X []) ;; ret (upd i y f)) f0 order) Q Xc s.
  Proof.
    intros Hnd Hl0 Hin H HX.
    eapply wp_conseq;
      [apply (wp_foldM _ order
               (fun done f s' => length f = length X /\
                   tr s' = tr s ++ map (fun i => EEval (nth i X []) (inl (nth i f n0))) done /\
                   argbuf s' = argbuf s /\
                   (forall i, ~ In i done -> nth i f n0 = nth i f0 n0)) Xc [] f0 s)| |auto].
    - cbn. rewrite app_nil_r; auto.
    - intros pre i post f s1 Ho (Hl & Ht & Hb & Hr). cbn in *.
      assert (Hi : i < length f) by (rewrite Hl; apply Hin; rewrite Ho, in_app_iff; cbn; auto).
      assert (Hni : ~ In i pre).
      { rewrite Ho in Hnd. apply NoDup_remove_2 in Hnd. rewrite in_app_iff in Hnd. tauto. }
      apply wp_bind, wp_call_fun; cbn.
      + intros y w _. apply wp_ret; cbn. repeat split.
        * rewrite upd_length; exact Hl.
        * rewrite Ht, <- app_assoc. f_equal. rewrite map_app. cbn.
          rewrite upd_nth_same by exact Hi. f_equal.
          apply map_ext_in. intros j Hj. rewrite upd_nth_other by (intros ->; auto). reflexivity.
        * exact Hb.
        * intros j Hj. rewrite in_app_iff in Hj; cbn in Hj.
          rewrite upd_nth_other by (intros ->; tauto). apply Hr; tauto.
      + intros n w _; apply HX.
    - cbn. intros f s' (Hl & Ht & Hb & Hr). apply H; auto.
  Qed.

  Lemma seq_perm_facts n (pi : list nat) :
    Permutation pi (seq 0 n) -> NoDup pi /\ (forall i, In i pi <-> i < n).
  Proof.
    intros H; split.
    - eapply Permutation_NoDup; [symmetry; exact H|apply seq_NoDup].
    - intros i; split; intros Hi.
      + apply (Permutation_in _ H), in_seq in Hi; lia.
      + apply (Permutation_in _ (Permutation_sym H)), in_seq; lia.
  Qed.

  Lemma combine_nth_eq (X : matrix) (f : vec) i :
    length f = length X -> nth i (combine X f) ([], n0) = (nth i X [], nth i f n0).
  Proof. intros H. apply combine_nth; auto. Qed.

  Lemma wp_eval_joblib X (Q : vec -> St -> Prop) (Xc : Exn -> St -> Prop) s :
    SchedOK ->
    (forall f s' l, length f = length X -> tr s' = tr s ++ map ok l ->
                  Permutation l (combine X f) -> argbuf s' = argbuf s -> Q f s') ->
    (forall n s', Xc (UserError n) s') ->
    wp (eval_joblib X) Q Xc s.
  Proof.
    intros Hs H HX. unfold eval_joblib. apply wp_bind. unfold wp, get_sched.
    pose proof (Hs (length X) (rs s)) as Hp.
    destruct (seq_perm_facts _ _ Hp) as [Hnd Hin].
    apply wp_eval_order; auto.
    - rewrite repeat_length; reflexivity.
    - intros i Hi; apply Hin; exact Hi.
    - intros f s' Hl Ht Hb _.
      apply (H f s' (map (fun i => (nth i X [], nth i f n0)) (e_sched (length X) (rs s)))); auto.
      + rewrite map_map. exact Ht.
      + rewrite (map_ext _ (fun i => nth i (combine X f) ([], n0)))
          by (intros; rewrite combine_nth_eq; auto).
        apply Permutation_map_nth. rewrite combine_length, Hl, Nat.min_id. exact Hp.
  Qed.

  Lemma arange_NoDup a b c : NoDup (arange a b c).
  Proof. unfold arange. apply NoDup_filter, seq_NoDup. Qed.
  Lemma arange_lt a b c i : In i (arange a b c) -> i < b.
  Proof. unfold arange. intros H. apply filter_In in H. destruct H as [H _]. apply in_seq in H; lia. Qed.

  Lemma cbs_evals (f : nat -> event) l :
    (forall i, exists x r, f i = EEval x r) -> cbs (map f l) = [] /\ scbs (map f l) = [].
  Proof.
    intros H; induction l as [|i l IH]; cbn; auto.
    destruct (H i) as (x & r & ->). cbn; auto.
  Qed.

  Lemma wp_eval_mpi X (Q : matrix * vec -> St -> Prop) (Xc : Exn -> St -> Prop) s :
    MpiShape ->
    (forall X' f s' evs, map (@length T) X' = map (@length T) X -> length f = length X ->
                  tr s' = tr s ++ evs -> cbs evs = [] -> Shares Mpi (length X) f evs ->
                  argbuf s' = argbuf s -> (exists n, X' = e_bcast n X) -> Q (X', f) s') ->
    (forall n s', Xc (UserError n) s') ->
    wp (eval_mpi X) Q Xc s.
  Proof.
    intros [Hb Hr] H HX. unfold eval_mpi. apply wp_bind. unfold wp at 1, mpi_bcast.
    set (X' := e_bcast (nbcast (tr s)) X).
    assert (HX' : map (@length T) X' = map (@length T) X) by apply Hb.
    assert (HlX : length X' = length X)
      by (apply (f_equal (@length nat)) in HX'; rewrite !map_length in HX'; exact HX').
    apply wp_bind. apply wp_eval_order.
    - apply arange_NoDup.
    - apply repeat_length.
    - apply arange_lt.
    - intros f s' Hl Ht Ha _. apply wp_bind. unfold wp at 1, mpi_allreduce. apply wp_ret.
      cbn [tr argbuf rs] in *.
      eapply (H X' _ _ ([EBcast X'] ++ map _ _ ++ [EReduce _])); auto.
      + etransitivity; [apply Hr|]. etransitivity; [exact Hl|exact HlX].
      + cbn [tr]. rewrite Ht, <- !app_assoc. reflexivity.
      + cbn. rewrite cbs_app. cbn.
        edestruct (cbs_evals) as [-> _]; [intros i; eexists; eexists; reflexivity|reflexivity].
      + split.
        * cbn. rewrite scbs_app. cbn.
          edestruct (cbs_evals) as [_ ->]; [intros i; eexists; eexists; reflexivity|reflexivity].
        * intros _. exists X', f. split; [exact HlX|]. rewrite map_map, <- HlX, Ht, <- !app_assoc. reflexivity.
      + exists (nbcast (tr s)); reflexivity.
    - auto.
  Qed.

  (** Evaluating a population. *)
  Lemma wp_eval_pop m X (Q : matrix * vec -> St -> Prop) (Xc : Exn -> St -> Prop) s :
    ModeOK m ->
    (forall X' f s' evs,
        length f = length X -> map (@length T) X' = map (@length T) X ->
        tr s' = tr s ++ evs -> cbs evs = [] -> Shares m (length X) f evs -> argbuf s' = argbuf s ->
        EvOK m X X' f evs -> (m = Mpi -> exists n, X' = e_bcast n X) ->
        Q (X', f) s') ->
    (forall n s', Xc (UserError n) s') ->
    wp (eval_pop m X) Q Xc s.
  Proof.
    intros Hm H HX. destruct m; cbn [eval_pop].
    - apply wp_bind, wp_eval_serial; auto. intros f s' Hl Ht Hb. apply wp_ret.
      apply (H X f s' (map ok (combine X f))); auto.
      + apply cbs_ok.
      + apply Shares_ok; discriminate.
      + intros _; split; [reflexivity|]. exists (combine X f); auto.
      + discriminate.
    - apply wp_bind, wp_eval_joblib; auto. intros f s' l Hl Ht Hp Hb. apply wp_ret.
      apply (H X f s' (map ok l)); auto.
      + apply cbs_ok.
      + apply Shares_ok; discriminate.
      + intros _; split; [reflexivity|]. exists l; repeat split; auto. discriminate.
      + discriminate.
    - apply wp_eval_mpi; auto. intros X' f s' evs Hl Hf Ht Hc Hs Hb He.
      apply (H X' f s' evs); auto. intros C; congruence.
  Qed.
End EvalRules.
