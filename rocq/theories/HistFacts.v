(** Consequences of a history: counts, callbacks, status, best solution, NaN, record. *)
From Verif Require Import Base Num Env Common DE CPSO NA Hoare EvalRules Gen Steps Hist Runs Best Inst.

(** the [k]-th block of [p] elements *)
Definition chunk {A} (p k : nat) (l : list A) : list A := firstn p (skipn (k * p) l).

Lemma chunk_app_l {A} p k (l1 l2 : list A) :
  S k * p <= length l1 -> chunk p k (l1 ++ l2) = chunk p k l1.
Proof.
  intros H. unfold chunk. rewrite skipn_app, firstn_app, skipn_length.
  replace (p - (length l1 - k * p)) with 0 by lia. rewrite firstn_O, app_nil_r. reflexivity.
Qed.
Lemma chunk_app_r {A} p k (l1 l2 : list A) :
  length l1 = k * p -> length l2 = p -> chunk p k (l1 ++ l2) = l2.
Proof.
  intros H1 H2. unfold chunk. rewrite skipn_app, <- H1, skipn_all, Nat.sub_diag. cbn.
  rewrite <- H2. apply firstn_all.
Qed.
Lemma chunk_In {A} p k (l : list A) z : In z (chunk p k l) -> In z l.
Proof.
  unfold chunk. intros H.
  rewrite <- (firstn_skipn (k * p)). apply in_or_app; right.
  rewrite <- (firstn_skipn p). apply in_or_app; left; exact H.
Qed.

Section Facts.
  Context {N : Num} {E : Env N}.
  Variable H : HParams.
  Notation p := (h_p H).
  Notation view := (h_view H).

  (** what can happen between two generations *)
  Definition Between (comp : bool) : Prop := forall it q q1, h_B H it q q1 -> q1 = q \/
     (comp = true /\
      exists g nw Y, restart_count p it (h_mx H) g = Some nw /\
        (0 < nw)%Z /\ length Y = length (worst (qf q) (Z.to_nat nw)) /\
        qx q1 = upd_many (worst (qf q) (Z.to_nat nw)) Y (qx q) /\
        qf q1 = upd_many (worst (qf q) (Z.to_nat nw))
                         (repeat (nlit 1 30) (Z.to_nat nw)) (qf q) /\
        qb q1 = qb q /\ qbf q1 = qbf q).

  Lemma Between_len comp it q q1 :
    Between comp -> h_B H it q q1 -> QLen p q -> QLen p q1.
  Proof.
    intros HB Hb [H1 H2].
    destruct (HB _ _ _ Hb) as [->|(_ & g & nw & Y & _ & _ & _ & Hx & Hf & _)]; [split; auto|].
    split; [rewrite Hx|rewrite Hf]; rewrite upd_many_length; auto.
  Qed.

  Lemma Hist_len comp it q r st pop t :
    Between comp -> Hist H it q r st pop t -> QLen p q.
  Proof.
    intros HB. induction 1 as [X X' f evs r HX HX' Hf Hc Hs Hev HC0 Hrec Xk HXk HXe q
                   |it q r pop t q1 q' st evs cand cf r' Hh IH Hb HG HC Hrec].
    - split; cbn; auto.
    - pose proof (gen_next_len (h_sync H) (it + 1) (h_mx H) (h_xtol H) (h_ftol H) cand cf q1 p
        (gs_len _ _ _ _ _ _ _ _ _ _ _ _ _ _ HG) (gs_lenf _ _ _ _ _ _ _ _ _ _ _ _ _ _ HG)
        (Between_len comp _ _ _ HB Hb IH)) as Hl.
      rewrite (gs_next _ _ _ _ _ _ _ _ _ _ _ _ _ _ HG) in Hl. exact Hl.
  Qed.

  (** ** Evaluations *)
  Lemma cbe_evals it q r pop : evals (cbe H it q r pop) = [] /\ ncalls (cbe H it q r pop) = 0.
  Proof. unfold cbe; destruct (h_cb H); split; reflexivity. Qed.

  Lemma combine_len (X : matrix) (f : vec) :
    length X = p -> length f = p -> length (combine (map view X) f) = p.
  Proof. intros; rewrite combine_length, map_length; lia. Qed.

  Lemma Hist_evals it q r st pop t :
    h_mode H <> Mpi -> Hist H it q r st pop t ->
    length (evals t) = Z.to_nat it * p /\ ncalls t = Z.to_nat it * p.
  Proof.
    intros Hm Hh. pose proof (Hist_status _ _ _ _ _ _ _ Hh) as [Hit _]. revert Hit.
    induction Hh as [X X' f evs r HX HX' Hf Hc Hs Hev HC0 Hrec Xk HXk HXe q
                   |it q r pop t q1 q' st evs cand cf r' Hh IH Hb HG HC Hrec]; intros Hit.
    - destruct (Hev Hm) as (-> & l & -> & Hl & _).
      pose proof (cbe_evals 1 q r (h_pop0 H X)) as [H1 H2].
      rewrite evals_app, ncalls_app, H1, H2, evals_ok, ncalls_ok, app_nil_r.
      rewrite (Permutation_length Hl), combine_len by auto. cbn; lia.
    - destruct (gs_ev _ _ _ _ _ _ _ _ _ _ _ _ _ _ HG Hm) as (l & -> & Hl & _).
      pose proof (cbe_evals (it + 1) q' r' (h_pop H q' cand)) as [H1 H2].
      pose proof (Hist_status _ _ _ _ _ _ _ Hh) as [Hit' _].
      destruct (IH Hit') as [I1 I2].
      rewrite !evals_app, !ncalls_app, H1, H2, evals_ok, ncalls_ok, app_nil_r, app_length.
      rewrite (Permutation_length Hl), combine_len
        by (first [apply (gs_len _ _ _ _ _ _ _ _ _ _ _ _ _ _ HG)
                  |apply (gs_lenf _ _ _ _ _ _ _ _ _ _ _ _ _ _ HG)]).
      rewrite I1, I2. split; nia.
  Qed.

  (** ** Callbacks *)
  Lemma Hist_cbs_len it q r st pop t :
    Hist H it q r st pop t -> length (cbs t) = if h_cb H then Z.to_nat it else 0.
  Proof.
    induction 1 as [X X' f evs r HX HX' Hf Hc Hs Hev HC0 Hrec Xk HXk HXe q
                   |it q r pop t q1 q' st evs cand cf r' Hh IH Hb HG HC Hrec].
    - rewrite cbs_app, Hc. unfold cbe. destruct (h_cb H); reflexivity.
    - rewrite !cbs_app, (gs_cbs _ _ _ _ _ _ _ _ _ _ _ _ _ _ HG), !app_length, IH.
      pose proof (Hist_status _ _ _ _ _ _ _ Hh) as [Hit' _].
      unfold cbe. destruct (h_cb H); cbn; lia.
  Qed.

  Lemma cbs_none_app t1 X s r t2 : cbs (t1 ++ ECb X s r :: t2) <> [].
  Proof. rewrite cbs_app. cbn. destruct (cbs t1); discriminate. Qed.

  Lemma app_split {A} (l1 : list A) e l2 a b :
    l1 ++ e :: l2 = a ++ b ->
    (exists c, a = l1 ++ e :: c /\ l2 = c ++ b) \/ (exists c, b = c ++ e :: l2 /\ l1 = a ++ c).
  Proof.
    revert a; induction l1 as [|x l1 IH]; intros [|y a] Heq; cbn in Heq.
    - right. exists []. auto.
    - injection Heq as -> ->. left. exists a. auto.
    - right. exists (x :: l1). subst b. auto.
    - injection Heq as -> Heq. destruct (IH _ Heq) as [(c & -> & ->)|(c & -> & ->)].
      + left. exists c; auto.
      + right. exists c; auto.
  Qed.

  (** Where the callbacks are in the trace, and what they carry. *)
  Lemma Hist_cb_at it q r st pop t :
    Hist H it q r st pop t -> forall t1 X s e t2, t = t1 ++ ECb X s e :: t2 ->
    (t2 = [] /\ s = h_state H it q r /\ X = pop /\ e = None) \/
    (exists it' q' r', Hist H it' q' r' None X (t1 ++ [ECb X s e]) /\ (1 <= it' < it)%Z /\
        s = h_state H it' q' r' /\ e = None).
  Proof.
    induction 1 as [X X' f evs r HX HX' Hf Hc Hs Hev HC0 Hrec Xk HXk HXe q
                   |it q r pop t q1 q' st evs cand cf r' Hh IH Hb HG HC Hrec];
      intros t1 Y s e t2 Heq.
    - unfold cbe in Heq. symmetry in Heq.
      destruct (app_split _ _ _ _ _ Heq) as [(c & -> & _)|(c & Hcc & ->)].
      { exfalso. exact (cbs_none_app _ _ _ _ _ Hc). }
      destruct (h_cb H); [|destruct c; discriminate].
      destruct c as [|? [|? ?]]; try discriminate. injection Hcc as <- <- <- <-.
      left. auto.
    - unfold cbe in Heq. symmetry in Heq.
      destruct (app_split _ _ _ _ _ Heq) as [(c & Ht & Ht2)|(c & Hcc & ->)].
      + right. destruct (IH _ _ _ _ _ Ht) as [(-> & -> & -> & ->)|(i2 & q2 & r2 & I1 & I2 & I3 & I4)].
        * exists it, q, r. rewrite <- Ht. pose proof (Hist_status _ _ _ _ _ _ _ Hh) as [Hit' _].
          repeat split; auto; lia.
        * exists i2, q2, r2. repeat split; auto; lia.
      + symmetry in Hcc.
        destruct (app_split _ _ _ _ _ Hcc) as [(c' & Hev & _)|(c' & Hcc' & ->)].
        { exfalso. pose proof (gs_cbs _ _ _ _ _ _ _ _ _ _ _ _ _ _ HG) as Hg.
          rewrite Hev in Hg. exact (cbs_none_app _ _ _ _ _ Hg). }
        destruct (h_cb H); [|destruct c'; discriminate].
        destruct c' as [|? [|? ?]]; try discriminate. injection Hcc' as <- <- <- <-.
        left. auto.
  Qed.

  Lemma Hist_last it q r st pop t :
    Hist H it q r st pop t -> h_cb H = true ->
    exists t1, t = t1 ++ [ECb pop (h_state H it q r) None].
  Proof.
    intros Hh Hcb.
    destruct Hh as [X X' f evs r HX HX' Hf Hc Hs Hev HC0 Hrec Xk HXk HXe q
                   |it q r pop t q1 q' st evs cand cf r' Hh Hb HG HC Hrec];
      unfold cbe; rewrite Hcb.
    - exists evs. reflexivity.
    - exists (t ++ evs). rewrite <- app_assoc. reflexivity.
  Qed.

  (** From positions among the callbacks to positions in the trace. *)
  Lemma cbs_split t : forall k X s, nth_error (cbs t) k = Some (X, s) ->
    exists t1 e t2, t = t1 ++ ECb X s e :: t2 /\ length (cbs t1) = k /\
                    cbs t = cbs t1 ++ (X, s) :: cbs t2.
  Proof.
    induction t as [|ev t IH]; intros k X s Hk; [destruct k; discriminate|].
    assert (Hsame : cbs (ev :: t) = cbs t -> exists t1 e t2, ev :: t = t1 ++ ECb X s e :: t2 /\
               length (cbs t1) = k /\ cbs (ev :: t) = cbs t1 ++ (X, s) :: cbs t2 \/
               (exists Y u v, ev = ECb Y u v)).
    { destruct ev as [x y|Y u v| | |]; intros Heq; try (exists [], None, []; right; eauto; fail);
        cbn in Hk; destruct (IH _ _ _ Hk) as (t1 & e & t2 & -> & H1 & H2);
        [exists (EEval x y :: t1)|exists (ESCb x st r :: t1)|exists (EBcast X0 :: t1)|exists (EReduce f :: t1)];
        exists e, t2; left; cbn; auto. }
    destruct ev as [x y|Y u v|x st r|X0|f];
      try (destruct (Hsame eq_refl) as (t1 & e & t2 & [Hr|(? & ? & ? & ?)]);
           [exists t1, e, t2; exact Hr|discriminate]).
    destruct k as [|k]; cbn in Hk.
    - injection Hk as -> ->. exists [], v, t. cbn; auto.
    - destruct (IH _ _ _ Hk) as (t1 & e & t2 & -> & H1 & H2).
      exists (ECb Y u v :: t1), e, t2. cbn. rewrite H1, H2. auto.
  Qed.

  (** ** Chunks of evaluations, one per iteration *)
  Lemma Hist_prefix_evals it q r st pop t t1 X s e t2 :
    h_mode H <> Mpi -> Hist H it q r st pop t -> t = t1 ++ ECb X s e :: t2 ->
    ncalls t1 = Z.to_nat (cb_nit s) * p /\ length (cbs t1) = Z.to_nat (cb_nit s) - 1.
  Proof.
    intros Hm Hh Ht.
    assert (Hcb : h_cb H = true).
    { destruct (h_cb H) eqn:Hcb; [reflexivity|exfalso].
      pose proof (Hist_cbs_len _ _ _ _ _ _ Hh) as Hl. rewrite Hcb, Ht in Hl.
      apply length_zero_iff_nil in Hl. revert Hl. apply cbs_none_app. }
    assert (Hgen : exists it' q' r' st', Hist H it' q' r' st' X (t1 ++ [ECb X s e]) /\ cb_nit s = it').
    { destruct (Hist_cb_at _ _ _ _ _ _ Hh _ _ _ _ _ Ht) as [(-> & -> & -> & ->)|(i & q' & r' & I1 & _ & -> & ->)].
      - exists it, q, r, st. rewrite <- Ht. auto.
      - exists i, q', r', None. auto. }
    destruct Hgen as (it' & q' & r' & st' & Hh' & ->).
    destruct (Hist_evals _ _ _ _ _ _ Hm Hh') as [_ Hn].
    pose proof (Hist_cbs_len _ _ _ _ _ _ Hh') as Hl.
    rewrite Hcb in Hl. rewrite ncalls_app in Hn. rewrite cbs_app, app_length in Hl.
    cbn in Hn, Hl. lia.
  Qed.
End Facts.
