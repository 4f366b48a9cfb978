(** C60: de, cpso, pso and na use the values of the objective only through comparisons: an
    increasing transformation of the objective (and of ftol) gives the same run. *)
From Verif Require Import Base Num Env Common DE CPSO NA Mat CMAES VDCMA Rel Hoare Disc EvalRules Gen
  Steps Best Inst.

Local Ltac vl := unfold matrix, vec in *; lia.

(** ** Specification *)
Section Spec.
  Context {N : Num}.
  Variable g : T -> T.

  (** [g] keeps the order of the values in [V] and whether they are NaN. *)
  Record Increasing (V : T -> Prop) : Prop := {
    inc_lt : forall x y, V x -> V y -> nltb (g x) (g y) = nltb x y;
    inc_le : forall x y, V x -> V y -> nleb (g x) (g y) = nleb x y;
    inc_nan : forall x, V x -> nisnan (g x) = nisnan x }.

  (** What the values of a run become. *)
  Definition onall (a : option (list matrix * list vec)) : option (list matrix * list vec) :=
    match a with Some (xs, fs) => Some (xs, map (map g) fs) | None => None end.
  Definition onstate (st : CbState) : CbState :=
    {| cb_x := cb_x st; cb_fun := g (cb_fun st); cb_nfev := cb_nfev st; cb_nit := cb_nit st;
       cb_all := onall (cb_all st) |}.
  Definition onevent (e : event) : event :=
    match e with
    | EEval x (inl y) => EEval x (inl (g y))
    | ECb X st r => ECb X (onstate st) r
    | e => e
    end.
  Definition onresult (r : OptRes) : OptRes :=
    mkOptRes (r_x r) (r_success r) (r_status r) (r_message r) (g (r_fun r)) (r_nfev r) (r_nit r)
             (onall (r_all r)).

  (** The environment in which the objective returns [g (fun x)], with callback [cb]. *)
  Definition transformed (E : Env N)
      (cb : matrix -> CbState -> @RNG N E * @US N E -> option nat * (@RNG N E * @US N E))
    : Env N :=
    @mkEnv N (@RNG N E) (@US N E) (@e_seed N E) (@e_rand N E) (@e_randn N E) (@e_perm N E)
           (@e_randint N E)
           (fun x w => match e_fun x w with
                       | (inl y, w') => (inl (g y), w')
                       | (inr e, w') => (inr e, w')
                       end)
           cb (@e_scb N E) (@e_sched N E) (@e_rank N E) (@e_mpisize N E) (@e_bcast N E)
           (@e_allreduce N E) (@e_argsort N E) (@e_percentile N E) (@e_median N E)
           (@e_eigh N E) (@e_empty N E).

  (** The arguments with ftol transformed as well. *)
  Definition with_ftol (t : T) (a : Args) : Args :=
    mkArgs (a_callable a) (a_bounds a) (a_x0 a) (a_x0_array a) (a_maxiter a) (a_popsize a)
           (a_seed a) (a_xtol a) t (a_constraints a) (a_workers a) (a_backend a)
           (a_return_all a) (a_verbosity a) (a_callback a).
End Spec.

(** The objective takes its values in [V]. *)
Definition ValuesIn {N : Num} (E : Env N) (V : T -> Prop) : Prop :=
  forall x w, match fst (e_fun x w) with inl y => V y | inr _ => True end.

(** np.argsort compares: two vectors ordered alike are sorted alike. *)
Definition OrderOnly {N : Num} (E : Env N) : Prop :=
  forall u v : vec, length u = length v ->
    (forall i j, i < length u -> j < length u ->
       nltb (nth i u n0) (nth j u n0) = nltb (nth i v n0) (nth j v n0) /\
       nleb (nth i u n0) (nth j u n0) = nleb (nth i v n0) (nth j v n0)) ->
    (forall i, i < length u -> nisnan (nth i u n0) = nisnan (nth i v n0)) ->
    e_argsort u = e_argsort v.

Section Mono.
  Context {N : Num} {E : Env N}.
  Variable g : T -> T.
  Variable V : T -> Prop.
  Hypothesis HG : Increasing g V.
  Hypothesis HF : ValuesIn E V.
  Variable cb' : matrix -> CbState -> @RNG N E * @US N E -> option nat * (@RNG N E * @US N E).
  Hypothesis HCB : forall X st w, cb' X (onstate g st) w = e_cb X st w.
  Hypothesis HSC : @SchedOK N E.
  Hypothesis HAS : OrderOnly E.
  Let E' : Env N := transformed g E cb'.

  Definition RG (s1 : @St N E) (s2 : @St N E') : Prop :=
    rs s1 = rs s2 /\ argbuf s1 = argbuf s2 /\ tr s2 = map (onevent g) (tr s1).

  Notation rel' := (@rel N E E' RG).
  Notation mg := (@map T T g).

  Lemma g_draw {A} (f : @RNG N E -> A * @RNG N E) : rel' (@draw N E A f) (@draw N E' A f) eq.
  Proof.
    intros s1 s2 [H1 [H2 H3]]. unfold draw.
    change (@RNG N E') with (@RNG N E). change (@US N E') with (@US N E).
    rewrite <- H1. destruct (f (fst (rs s1))) as [a r]. unfold RG. cbn. auto.
  Qed.
  Lemma g_rand : rel' rand rand eq. Proof. exact (g_draw e_rand). Qed.
  Lemma g_perm n : rel' (perm n) (perm n) eq. Proof. exact (g_draw (e_perm n)). Qed.
  Lemma g_randint n : rel' (randint n) (randint n) eq. Proof. exact (g_draw (e_randint n)). Qed.
  Lemma g_seed o : rel' (seed o) (seed o) eq.
  Proof.
    destruct o as [z|]; [|apply rel_ret; reflexivity].
    intros s1 s2 [H1 [H2 H3]]. unfold RG. cbn. rewrite <- H1. auto.
  Qed.
  Lemma g_set_arg X : rel' (set_arg X) (set_arg X) eq.
  Proof. intros s1 s2 [H1 [H2 H3]]. unfold RG. cbn. auto. Qed.
  Lemma g_call_fun x : rel' (call_fun x) (call_fun x) (fun y y' => y' = g y /\ V y).
  Proof.
    intros s1 s2 [H1 [H2 H3]]. unfold call_fun. cbn [e_fun E' transformed].
    change (@e_fun N E' x (rs s2)) with
      (match e_fun x (rs s2) with
       | (inl y, w') => (inl (g y), w')
       | (inr e, w') => (@inr T nat e, w')
       end).
    rewrite <- H1. change (@RNG N E') with (@RNG N E). change (@US N E') with (@US N E).
    pose proof (HF x (rs s1)) as HV.
    destruct (e_fun x (rs s1)) as [[y|e] w]; unfold RG; cbn; rewrite H3, map_app; auto.
  Qed.
  Lemma g_call_cb X st st' : st' = onstate g st -> rel' (call_cb X st) (call_cb X st') eq.
  Proof.
    intros -> s1 s2 [H1 [H2 H3]]. unfold call_cb.
    change (@e_cb N E') with cb'. rewrite <- H1.
    change (@RNG N E') with (@RNG N E). change (@US N E') with (@US N E).
    rewrite HCB. destruct (e_cb X st (rs s1)) as [r w]. unfold RG. cbn.
    rewrite H3, map_app. split; [auto|]. destruct r; reflexivity.
  Qed.
  Lemma g_uniform lo hi : rel' (uniform lo hi) (uniform lo hi) eq.
  Proof. eapply rel_bind; [apply g_rand|]. intros a b <-. apply rel_ret. reflexivity. Qed.
  Lemma g_urange l u : rel' (urange l u) (urange l u) eq.
  Proof. unfold urange. destruct (frange _ _); [apply rel_ret; reflexivity|apply rel_raise]. Qed.
  Lemma g_uniform1 l u : rel' (uniform1 l u) (uniform1 l u) eq.
  Proof. eapply rel_bind; [apply g_urange|]. intros ? ? _. apply g_uniform. Qed.
  Lemma g_uniform_row l u : rel' (uniform_row l u) (uniform_row l u) eq.
  Proof. apply rel_mapM. intros. apply g_uniform. Qed.
  Lemma g_uniform_vec l u : rel' (uniform_vec l u) (uniform_vec l u) eq.
  Proof. eapply rel_bind; [apply g_urange|]. intros ? ? _. apply g_uniform_row. Qed.
  Lemma g_uniform_mat p l u : rel' (uniform_mat p l u) (uniform_mat p l u) eq.
  Proof. eapply rel_bind; [apply g_urange|]. intros ? ? _. apply rel_replicateM, g_uniform_row. Qed.
  Lemma g_rand_mat p d : rel' (rand_mat p d) (rand_mat p d) eq.
  Proof. apply rel_replicateM, rel_replicateM, g_rand. Qed.
  Lemma g_lhs p d l u : rel' (lhs p d l u) (lhs p d l u) (fun a b => a = b /\ length a = p).
  Proof.
    eapply rel_bind; [apply g_rand_mat|]. intros a b <-. cbn zeta.
    eapply rel_bind; [apply rel_replicateM, g_perm|]. intros c c' <-.
    apply rel_ret. split; [reflexivity|]. rewrite !map_length, seq_length. reflexivity.
  Qed.
  Lemma g_raise_if b e : rel' (raise_if b e) (raise_if b e) (fun _ _ => b = false).
  Proof. destruct b; [apply rel_raise | apply rel_ret; reflexivity]. Qed.
  Lemma g_seed_and_cb a b :
    a_seed a = a_seed b -> a_callback a = a_callback b ->
    rel' (seed_and_cb a) (seed_and_cb b) eq.
  Proof.
    intros H1 H2. unfold seed_and_cb. rewrite H1, H2.
    eapply rel_bind; [apply g_seed|]. intros _ _ _. apply rel_raise_if.
  Qed.

  (** ** Evaluation of a population *)
  Definition Evd (n : nat) (p q : matrix * vec) : Prop :=
    fst p = fst q /\ snd q = mg (snd p) /\ length (snd p) = n /\ Forall V (snd p).

  Lemma g_eval_serial X :
    rel' (eval_serial X) (eval_serial X) (fun u v => v = mg u /\ length u = length X /\ Forall V u).
  Proof.
    unfold eval_serial. induction X as [|x X IH]; cbn [mapM]; [apply rel_ret; repeat split; constructor|].
    eapply rel_bind; [apply g_call_fun|]. intros y ? [-> Hy].
    eapply rel_bind; [exact IH|]. intros u ? (-> & Hu & HVu). apply rel_ret.
    repeat split; [cbn; congruence | constructor; assumption].
  Qed.

  Lemma nth_upd (i j : nat) (y : T) (f : vec) : i < length f ->
    nth j (upd i y f) n0 = if (j =? i)%nat then y else nth j f n0.
  Proof.
    revert j f. induction i as [|i IH]; intros j [|a f] Hi; cbn in Hi; try lia;
      destruct j as [|j]; cbn; try reflexivity.
    apply IH. lia.
  Qed.

  Lemma g_fold X (order : list nat) : forall f1 f2 : vec,
    length f1 = length X -> length f2 = length X ->
    (forall i, In i order -> i < length X) ->
    (forall i, i < length X -> ~ In i order -> nth i f2 n0 = g (nth i f1 n0) /\ V (nth i f1 n0)) ->
    rel' (foldM (fun f i => y <- call_fun (nth i X []) ;; ret (upd i y f)) f1 order)
         (foldM (fun f i => y <- call_fun (nth i X []) ;; ret (upd i y f)) f2 order)
         (fun u v => v = mg u /\ length u = length X /\ Forall V u).
  Proof.
    induction order as [|k order IH]; intros f1 f2 H1 H2 HIn HN; cbn [foldM].
    - apply rel_ret. split; [|split; [exact H1|]].
      + apply nth_ext with (d := n0) (d' := g n0); [rewrite map_length; congruence|].
        intros i Hi. rewrite map_nth. apply HN; [congruence | intros []].
      + apply Forall_nth. intros i d Hi. rewrite (nth_indep _ d n0) by exact Hi.
        apply HN; [congruence | intros []].
    - apply rel_bind with (Q := fun u v => exists y, u = upd k y f1 /\ v = upd k (g y) f2 /\ V y).
      + eapply rel_bind; [apply g_call_fun|]. intros y ? [-> Hy]. apply rel_ret. eauto.
      + intros u v (y & -> & -> & Hy).
        assert (Hk : k < length X) by (apply HIn; left; reflexivity).
        apply IH; rewrite ?upd_length; auto.
        * intros i Hi. apply HIn. right. exact Hi.
        * intros i Hi Hn. rewrite !nth_upd by congruence.
          destruct (Nat.eqb_spec i k); [auto|]. apply HN; [exact Hi|].
          intros [-> | H]; auto.
  Qed.

  Lemma g_eval_joblib X :
    rel' (eval_joblib X) (eval_joblib X) (fun u v => v = mg u /\ length u = length X /\ Forall V u).
  Proof.
    apply rel_bind with (Q := fun a b => a = b /\ Permutation a (seq 0 (length X))).
    - intros s1 s2 HR. split; [exact HR|]. cbn. destruct HR as [H _]. rewrite <- H.
      split; [reflexivity | apply HSC].
    - intros o ? [<- Hp]. apply g_fold; rewrite ?repeat_length; auto.
      + intros i Hi. apply (Permutation_in _ Hp) in Hi. apply in_seq in Hi. vl.
      + intros i Hi Hn. exfalso. apply Hn.
        apply (Permutation_in _ (Permutation_sym Hp)), in_seq. vl.
  Qed.

  Lemma g_eval_pop m X : m <> Mpi -> rel' (eval_pop m X) (eval_pop m X) (Evd (length X)).
  Proof.
    intro Hm. destruct m; [| |congruence].
    - eapply rel_bind; [apply g_eval_serial|]. intros u ? (-> & Hu & HVu). apply rel_ret.
      split; [reflexivity | auto].
    - eapply rel_bind; [apply g_eval_joblib|]. intros u ? (-> & Hu & HVu). apply rel_ret.
      split; [reflexivity | auto].
  Qed.

  Lemma g_eval_kind sync w b : b <> Some "mpi"%string ->
    rel' (eval_kindM sync w b) (eval_kindM sync w b) (fun x y => x = y /\ x <> Mpi).
  Proof.
    intro Hb. unfold eval_kindM. destruct (eval_kind sync w b) as [m|e] eqn:Em; [|apply rel_raise].
    apply rel_ret. split; [reflexivity|]. intros ->. revert Em. unfold eval_kind, wrapper_kind.
    destruct b as [b|].
    - destruct (String.eqb b "") eqn:Eb.
      + cbn. destruct (negb _), sync; cbn; discriminate.
      + assert (Hm : String.eqb b "mpi" = false).
        { apply String.eqb_neq. intros ->. apply Hb. reflexivity. }
        destruct (in_prefer b) eqn:Ei; rewrite ?Ei, ?Hm; cbn.
        * destruct (negb _), sync; cbn; discriminate.
        * destruct sync; cbn; discriminate.
    - cbn. destruct (negb _), sync; cbn; discriminate.
  Qed.

  (** ** Comparisons *)
  Lemma g_argmin_from l : Forall V l -> forall mp ip i, V mp ->
    argmin_from (g mp) ip i (mg l) = argmin_from mp ip i l.
  Proof.
    induction 1 as [|v l Hv _ IH]; intros mp ip i Hm; cbn [argmin_from map]; [reflexivity|].
    rewrite (inc_le g V HG), (inc_nan g V HG) by assumption. rewrite !IH by assumption. reflexivity.
  Qed.
  Lemma g_argmin v : Forall V v -> argmin (mg v) = argmin v.
  Proof.
    intro H. destruct H as [|a v Ha H]; [reflexivity|]. cbn [argmin map].
    rewrite (inc_nan g V HG), g_argmin_from by assumption. reflexivity.
  Qed.
  Lemma g_np_argmin v : Forall V v ->
    rel' (np_argmin v) (np_argmin (mg v)) (fun i j => i = j /\ i < length v).
  Proof.
    destruct v as [|a v]; [intros _; apply rel_raise|]. intro H. cbn [np_argmin map]. apply rel_ret.
    change (g a :: mg v) with (mg (a :: v)). rewrite g_argmin by exact H.
    split; [reflexivity|]. apply argmin_lt. discriminate.
  Qed.
  Lemma g_nth i v : i < length v -> nth i (mg v) n0 = g (nth i v n0).
  Proof.
    intro H. rewrite (nth_indep _ n0 (g n0)) by (rewrite map_length; exact H). apply map_nth.
  Qed.
  Lemma V_nth i v : Forall V v -> i < length v -> V (nth i v n0).
  Proof. intros H Hi. rewrite Forall_forall in H. apply H, nth_In, Hi. Qed.
  Lemma g_sel_fun u v : Forall V u -> Forall V v -> sel_fun (mg u) (mg v) = mg (sel_fun u v).
  Proof.
    unfold sel_fun. intro Hu. revert v. induction Hu as [|a u Ha _ IH]; intros v Hv;
      destruct Hv as [|b v Hb Hv]; cbn; try reflexivity.
    rewrite (inc_lt g V HG), IH by assumption. destruct (nltb a b); reflexivity.
  Qed.
  Lemma V_sel_fun u v : Forall V u -> Forall V v -> Forall V (sel_fun u v).
  Proof.
    unfold sel_fun. intro Hu. revert v. induction Hu as [|a u Ha _ IH]; intros v Hv;
      destruct Hv as [|b v Hb Hv]; cbn; constructor; auto. destruct (nltb a b); assumption.
  Qed.
  Lemma g_sel_x c u x v : Forall V u -> Forall V v -> sel_x c (mg u) x (mg v) = sel_x c u x v.
  Proof.
    unfold sel_x. intro Hu. revert c x v.
    induction Hu as [|b u Hb _ IH]; intros [|a c] [|y x] v Hv;
      destruct Hv as [|d v Hd Hv]; cbn; try reflexivity.
    rewrite (inc_lt g V HG) by assumption. f_equal. apply IH, Hv.
  Qed.
  Lemma g_argsort v : Forall V v -> e_argsort (mg v) = e_argsort v.
  Proof.
    intro H. apply HAS; [apply map_length| |]; rewrite map_length.
    - intros i j Hi Hj. rewrite !g_nth by assumption.
      rewrite (inc_lt g V HG), (inc_le g V HG) by (apply V_nth; assumption). auto.
    - intros i Hi. rewrite g_nth by assumption. apply (inc_nan g V HG), V_nth; assumption.
  Qed.

  (** ** Selection *)
  Definition Sel (a b : SelSync) : Prop :=
    ss_cand a = ss_cand b /\ ss_x a = ss_x b /\ ss_xfun b = mg (ss_xfun a) /\
    ss_best a = ss_best b /\ ss_bestfun b = g (ss_bestfun a) /\
    ss_candfun b = mg (ss_candfun a) /\ ss_status a = ss_status b /\ ss_candfun a <> [] /\
    Forall V (ss_xfun a) /\ V (ss_bestfun a) /\ Forall V (ss_candfun a).

  Lemma g_status it mi xt ft xb xi fi : V ft -> V fi ->
    sync_status it mi xt (g ft) xb xi (g fi) = sync_status it mi xt ft xb xi fi.
  Proof. intros H1 H2. unfold sync_status. rewrite !(inc_le g V HG) by assumption. reflexivity. Qed.

  Lemma g_selection it c xb x xf mi xt ft ev1 ev2 n :
    V ft -> Forall V xf -> rel' (ev1 c) (ev2 c) (Evd n) ->
    rel' (selection_sync it c xb x xf mi xt ft ev1)
         (selection_sync it c xb x (mg xf) mi xt (g ft) ev2) Sel.
  Proof.
    intros HVt HVx H. unfold selection_sync. eapply rel_bind; [apply H|].
    intros [c1 f1] [c2 f2] (H1 & H2 & H3 & H4). cbn in H1, H2, H3, H4. subst c2 f2.
    pose proof (V_sel_fun f1 xf H4 HVx) as HVs.
    rewrite g_sel_fun by assumption.
    eapply rel_bind; [apply g_np_argmin, HVs|]. intros i ? [<- Hi].
    apply rel_ret. unfold sync_sel. rewrite g_sel_fun, g_sel_x, g_argmin by assumption.
    assert (Hne : sel_fun f1 xf <> []) by (intro Heq; rewrite Heq in Hi; cbn in Hi; lia).
    pose proof (argmin_lt _ Hne) as Hlt.
    rewrite (g_nth (argmin (sel_fun f1 xf))) by exact Hlt.
    rewrite g_status by (try apply V_nth; assumption).
    unfold Sel. cbn. repeat split; auto.
    - intros ->. destruct xf; apply Hne; reflexivity.
    - apply V_nth; assumption.
  Qed.

  Definition SelA (a b : SelAsync) : Prop :=
    sa_x a = sa_x b /\ sa_xfun b = mg (sa_xfun a) /\ sa_best a = sa_best b /\
    sa_bestfun b = g (sa_bestfun a) /\ sa_candfun b = g (sa_candfun a) /\
    sa_status a = sa_status b /\
    Forall V (sa_xfun a) /\ V (sa_bestfun a) /\ V (sa_candfun a).

  Lemma map_upd i (y : T) v : mg (upd i y v) = upd i (g y) (mg v).
  Proof. revert v. induction i as [|i IH]; intros [|a v]; cbn; try reflexivity. rewrite IH. reflexivity. Qed.
  Lemma V_upd i (y : T) v : V y -> Forall V v -> Forall V (upd i y v).
  Proof.
    intros Hy H. revert i. induction H as [|a v Ha H IH]; intros [|i]; cbn; constructor; auto.
  Qed.

  Lemma g_selection_async c xb xbf x xf xt ft i : V ft -> V xbf -> Forall V xf -> i < length xf ->
    rel' (selection_async c xb xbf x xf xt ft i)
         (selection_async c xb (g xbf) x (mg xf) xt (g ft) i)
         (fun a b => SelA a b /\ length (sa_xfun a) = length xf).
  Proof.
    intros HV1 HV2 HV3 Hi. eapply rel_bind; [apply g_call_fun|]. intros y ? [-> Hy]. apply rel_ret.
    unfold async_sel. rewrite (g_nth i) by exact Hi.
    rewrite !(inc_le g V HG) by (try apply V_nth; assumption).
    destruct (nleb y (nth i xf n0)); [destruct (nleb y xbf)|]; unfold SelA; cbn;
      rewrite ?map_upd, ?upd_length; repeat split; auto using V_upd.
  Qed.

  (** ** Recording *)
  Lemma g_fit_rows n (v : vec) : fit_rows n (mg v) = option_map mg (fit_rows n v).
  Proof.
    unfold fit_rows. rewrite map_length. destruct (length v =? n); [reflexivity|].
    destruct v as [|a [|b v]]; cbn; try reflexivity. f_equal. induction n; cbn; congruence.
  Qed.
  Lemma g_firstn n (v : vec) : firstn n (mg v) = mg (firstn n v).
  Proof. apply firstn_map. Qed.

  Lemma g_rec_write n mi it pop pf best best' r :
    best' = (fst best, g (snd best)) ->
    rel' (rec_write n mi it pop pf best r)
         (rec_write n mi it pop (mg pf) best' (onall g r))
         (fun a b => b = onall g a).
  Proof.
    intros ->. unfold rec_write, rec_put. destruct n as [n|]; [|apply rel_ret; reflexivity].
    destruct r as [[rx rf]|]; cbn [onall]; [|apply rel_ret; reflexivity].
    apply rel_bind with (Q := fun a b => b = (fst a, map (map g) (snd a))).
    - destruct (mi <? it)%Z; [apply rel_raise|].
      destruct (0 <? n)%Z; [|apply rel_ret; cbn; rewrite map_app; reflexivity].
      eapply rel_bind; [apply rel_orelse|]. intros a b <-.
      rewrite g_firstn, g_fit_rows.
      apply rel_bind with (Q := fun a b => b = mg a).
      { destruct (fit_rows _ (firstn _ pf)); cbn; [apply rel_ret; reflexivity | apply rel_raise]. }
      intros c ? ->. apply rel_ret. cbn. rewrite map_app. reflexivity.
    - intros [a1 a2] b ->. apply rel_ret. reflexivity.
  Qed.
  Lemma g_rec_write0 nout mi pop pf x y :
    rel' (rec_write nout mi 1 pop pf (x, y)
            (match nout with Some _ => Some ([], []) | None => None end))
         (rec_write nout mi 1 pop (mg pf) (x, g y)
            (match nout with Some _ => Some ([], []) | None => None end))
         (fun a b => b = onall g a).
  Proof. destruct nout; exact (g_rec_write _ _ _ _ _ (x, y) _ _ eq_refl). Qed.

  Lemma g_best_row X pf : pf <> [] -> Forall V pf ->
    best_row X (mg pf) = (fst (best_row X pf), g (snd (best_row X pf))).
  Proof.
    intros H HV. unfold best_row. rewrite g_argmin by exact HV. cbn. f_equal.
    apply g_nth, argmin_lt, H.
  Qed.

  (** ** The loop *)
  Definition view {S} (d1 : @Drv N E S) (d2 : @Drv N E' S) (a b : S) : Prop :=
    d_pop d1 a = d_pop d2 b /\ d_x d1 a = d_x d2 b /\ d_fun d2 b = g (d_fun d1 a) /\
    (forall it, d_nfev d1 it a = d_nfev d2 it b) /\ d_rec d2 b = onall g (d_rec d1 a).

  Lemma g_drive {S} (d1 : @Drv N E S) (d2 : @Drv N E' S) (K : S -> S -> Prop) cb :
    (forall it a b, K a b ->
       rel' (d_step d1 it a) (d_step d2 it b) (fun p q => K (fst p) (fst q) /\ snd p = snd q)) ->
    (forall it a b, K a b -> rel' (d_post d1 it a) (d_post d2 it b) K) ->
    (forall a b, K a b -> view d1 d2 a b) ->
    forall n it a b, K a b ->
      rel' (drive d1 cb n it a) (drive d2 cb n it b) (fun r r' => r' = onresult g r).
  Proof.
    intros HS HP HV. induction n as [|n IH]; intros it a b HK; cbn; [apply rel_raise|].
    eapply rel_bind; [apply HS; exact HK|].
    intros [a' c] [b' c'] [HK' Hc]. cbn in *. subst c'.
    pose proof (HV _ _ HK') as (V1 & V2 & V3 & V4 & V5).
    apply rel_bind with (Q := eq).
    - rewrite <- V1. apply rel_when, g_call_cb. unfold cb_state, onstate. cbn.
      rewrite V2, V3, V4, V5. reflexivity.
    - intros _ _ _. destruct c as [c|].
      + unfold result. apply rel_bind with (Q := eq); [apply rel_orelse|]. intros m m' <-.
        apply rel_ret. unfold onresult. cbn. rewrite V2, V3, V4, V5. reflexivity.
      + eapply rel_bind; [apply HP; exact HK'|]. intros u v Huv. apply IH, Huv.
  Qed.

  Lemma g_start {S} (d1 : @Drv N E S) (d2 : @Drv N E' S) cb it a b :
    view d1 d2 a b ->
    rel' (when cb (call_cb (d_pop d1 a) (cb_state d1 it a)))
         (when cb (call_cb (d_pop d2 b) (cb_state d2 it b))) eq.
  Proof.
    intros (V1 & V2 & V3 & V4 & V5). rewrite <- V1. apply rel_when, g_call_cb.
    unfold cb_state, onstate. cbn. rewrite V2, V3, V4, V5. reflexivity.
  Qed.

  (** What [check_pop] leaves. *)
  Definition Checked (a : Args) : Prop :=
    (2 <= a_popsize a)%Z /\
    match a_x0 a with None => True | Some x => Z.of_nat (nd_len x) = a_popsize a end /\
    match a_x0 a with None => True | Some x => ndim_is 2 x = true end.

  Lemma g_check_pop a t :
    rel' (check_pop a) (check_pop (with_ftol t a)) (fun _ _ => Checked a).
  Proof.
    unfold check_pop. cbn [a_callable a_bounds a_x0 a_popsize with_ftol].
    eapply rel_bind; [apply g_raise_if|]. intros _ _ _.
    eapply rel_bind; [apply g_raise_if|]. intros _ _ _.
    eapply rel_bind; [apply g_raise_if|]. intros ? ? H1. cbv beta in H1.
    eapply rel_bind; [apply g_raise_if|]. intros ? ? H2. cbv beta in H2.
    eapply rel_conseq; [apply g_raise_if|]. intros ? ? H3. cbv beta in H3.
    apply Z.ltb_ge in H2. unfold Checked. split; [exact H2|].
    destruct (a_x0 a) as [x|]; [|auto]. apply orb_false_iff in H1. destruct H1 as [H1 _].
    rewrite negb_false_iff in H1, H3. apply Z.eqb_eq in H3. auto.
  Qed.

  (** The initial population. *)
  Lemma g_pop0 a d l u : Checked a ->
    rel' (match a_x0 a with Some x => ret (nd_rows x) | None => lhs (Z.to_nat (a_popsize a)) d l u end)
         (match a_x0 a with Some x => ret (nd_rows x) | None => lhs (Z.to_nat (a_popsize a)) d l u end)
         (fun X Y => X = Y /\ length X = Z.to_nat (a_popsize a)).
  Proof.
    intros (H1 & H2 & H3). destruct (a_x0 a) as [x|]; [|apply g_lhs].
    apply rel_ret. split; [reflexivity|].
    destruct x; cbn in H3; try discriminate. cbn in *. lia.
  Qed.

  (** ** DE *)
  Definition de_t (P : DEParams) : DEParams :=
    mkDEParams (de_F P) (de_CR P) (de_strat P) (de_con P) (de_p P) (de_d P) (de_lower P)
               (de_upper P) (de_maxiter P) (de_xtol P) (g (de_ftol P)) (de_mode P) (de_nout P)
               (de_alias P) (de_list P).

  Definition KDe (sync : bool) (p : nat) (a b : DES) : Prop :=
    des_X a = des_X b /\ des_gbest a = des_gbest b /\ des_pbestfit b = mg (des_pbestfit a) /\
    des_gfit b = g (des_gfit a) /\ des_pfit b = mg (des_pfit a) /\
    des_rec b = onall g (des_rec a) /\ des_pfit a <> [] /\
    (sync = false -> length (des_pbestfit a) = p) /\
    Forall V (des_pbestfit a) /\ V (des_gfit a) /\ Forall V (des_pfit a).

  Lemma g_delete_shuffle p i : rel' (delete_shuffle p i) (delete_shuffle p i) eq.
  Proof. eapply rel_bind; [apply g_perm|]. intros a ? <-. apply rel_ret. reflexivity. Qed.
  Lemma g_np_randint n : rel' (np_randint n) (np_randint n) eq.
  Proof. destruct n; [apply rel_raise | apply g_randint]. Qed.
  Lemma g_de_cons c l u x : rel' (de_cons c l u x) (de_cons c l u x) eq.
  Proof.
    destruct c; [apply rel_ret; reflexivity|].
    eapply rel_bind; [apply g_uniform_vec|]. intros r ? <-. apply rel_ret. reflexivity.
  Qed.

  Lemma g_de_cands P r X gb : rel' (de_cands P r X gb) (de_cands (de_t P) r X gb) eq.
  Proof.
    unfold de_cands. cbn [de_p de_strat de_F de_d de_con de_lower de_upper de_CR de_t].
    eapply rel_bind; [apply rel_mapM; intros; apply g_delete_shuffle|]. intros a ? <-.
    eapply rel_bind; [apply rel_mapM; intros; apply rel_orelse|]. intros b ? <-.
    eapply rel_bind; [apply rel_replicateM, g_np_randint|]. intros c ? <-.
    apply rel_mapM. intros. apply g_de_cons.
  Qed.
  Lemma g_de_cand1 P r i X gb : rel' (de_cand1 P r i X gb) (de_cand1 (de_t P) r i X gb) eq.
  Proof.
    eapply rel_bind; [apply g_delete_shuffle|]. intros a ? <-.
    eapply rel_bind; [apply rel_orelse|]. intros b ? <-.
    eapply rel_bind; [apply g_np_randint|]. intros c ? <-. apply g_de_cons.
  Qed.

  (** A fold whose accumulators are related. *)
  Lemma g_foldM {A B} (K : A -> A -> Prop) (f1 : A -> B -> @M N E A) (f2 : A -> B -> @M N E' A) l :
    (forall a a' b, In b l -> K a a' -> rel' (f1 a b) (f2 a' b) K) ->
    forall a a', K a a' -> rel' (foldM f1 a l) (foldM f2 a' l) K.
  Proof.
    induction l as [|x l IH]; intros H a a' HK; cbn [foldM]; [apply rel_ret; exact HK|].
    eapply rel_bind; [apply H; [left; reflexivity | exact HK]|]. intros b b' HK'.
    apply IH; [|exact HK']. intros. apply H; [right|]; assumption.
  Qed.

  Lemma upd_nil i (y : T) v : v <> [] -> upd i y v <> [].
  Proof. destruct v, i; cbn; congruence. Qed.

  Lemma g_de_step P sync it a b : de_mode P <> Mpi -> V (de_ftol P) -> KDe sync (de_p P) a b ->
    rel' (de_step P sync it a) (de_step (de_t P) sync it b)
         (fun p q => KDe sync (de_p P) (fst p) (fst q) /\ snd p = snd q).
  Proof.
    intros HM HVt HK. unfold de_step.
    eapply rel_bind; [apply g_rand_mat|]. intros r1 ? <-.
    eapply rel_bind; [apply rel_raise_if|]. intros _ _ _.
    apply rel_bind with
      (Q := fun p q => KDe sync (de_p P) (fst p) (fst q) /\ snd p = snd q).
    - destruct sync.
      + unfold de_sync. destruct HK as (K1 & K2 & K3 & K4 & K5 & K6 & K7 & K8 & K9 & K10 & K11).
        rewrite <- K1, <- K2, K3.
        eapply rel_bind; [apply g_de_cands|]. intros U ? <-.
        eapply rel_bind; [eapply g_selection; [exact HVt | exact K9 | apply g_eval_pop; exact HM]|].
        intros s1 s2 (S1 & S2 & S3 & S4 & S5 & S6 & S7 & S8 & S9 & S10 & S11).
        unfold set_alias. cbn [de_alias de_t]. rewrite <- S2.
        eapply rel_bind; [apply rel_when, g_set_arg|]. intros _ _ _.
        apply rel_ret. unfold KDe. cbn. repeat split; auto; discriminate.
      + unfold de_async. eapply rel_bind.
        * apply g_foldM with
            (K := fun p q : DES * option Z => KDe false (de_p P) (fst p) (fst q) /\ snd p = snd q);
            [|split; [exact HK | reflexivity]].
          intros [s1 c1] [s2 c2] i Hi [HK' _]. cbn [fst] in HK'. unfold de_async_one. cbn [fst].
          destruct HK' as (K1 & K2 & K3 & K4 & K5 & K6 & K7 & K8 & K9 & K10 & K11). rewrite <- K1, <- K2.
          eapply rel_bind; [apply g_de_cand1|]. intros u ? <-.
          rewrite K3, K4.
          eapply rel_bind.
          { apply g_selection_async; [exact HVt | exact K10 | exact K9 |]. rewrite (K8 eq_refl). apply in_seq in Hi. apply Hi. }
          intros t1 t2 ((S1 & S2 & S3 & S4 & S5 & S6 & S7 & S8 & S9) & SL).
          unfold set_alias. cbn [de_alias de_t]. rewrite <- S1.
          eapply rel_bind; [apply rel_when, g_set_arg|]. intros _ _ _.
          apply rel_ret. unfold KDe. cbn. repeat split; auto.
          -- rewrite K5, map_upd, S5. reflexivity.
          -- apply upd_nil, K7.
          -- intros _. rewrite SL. auto.
          -- apply V_upd; assumption.
        * intros [s1 c1] [s2 c2] [HK' Hc]. cbn in Hc. subst c2. apply rel_ret. split; [exact HK'|].
          reflexivity.
    - intros [s1 c1] [s2 c2] [HK' Hc]. cbn in Hc. subst c2. cbn [fst] in HK'.
      destruct HK' as (K1 & K2 & K3 & K4 & K5 & K6 & K7 & K8 & K9 & K10 & K11).
      cbn [de_nout de_maxiter de_t]. cbv beta iota. rewrite <- K1, K5, K6.
      eapply rel_bind; [apply g_rec_write; apply g_best_row; [exact K7 | exact K11]|]. intros r ? ->.
      apply rel_ret. unfold KDe. cbn. repeat split; auto.
  Qed.

  Lemma g_de a sync F CR st : a_backend a <> Some "mpi"%string -> Checked a -> V (a_ftol a) ->
    rel' (de a sync F CR st) (de (with_ftol (g (a_ftol a)) a) sync F CR st)
         (fun r r' => r' = onresult g r).
  Proof.
    intros HB HC HVt. unfold de.
    cbn [a_bounds with_ftol a_constraints a_popsize a_x0 a_x0_array a_return_all a_verbosity
         a_maxiter a_xtol a_ftol a_callback a_workers a_backend].
    eapply rel_bind; [apply g_eval_kind, HB|]. intros m ? [<- Hm].
    eapply rel_bind; [apply rel_unpack|]. intros [l u] ? <-.
    eapply rel_bind; [apply rel_orelse|]. intros con ? <-. cbn zeta.
    eapply rel_bind; [apply g_pop0, HC|]. intros X ? [<- HX].
    eapply rel_bind; [apply rel_raise_if|]. intros _ _ _.
    eapply rel_bind; [apply g_eval_pop, Hm|]. intros [X1 pf] [X2 pf'] (H1 & H2 & H3 & H4).
    cbn in H1, H2, H3, H4. subst X2 pf'.
    eapply rel_bind; [apply rel_when, g_set_arg|]. intros _ _ _.
    eapply rel_bind; [apply g_np_argmin, H4|]. intros gb ? [<- Hgb]. rewrite (g_nth gb) by exact Hgb.
    eapply rel_bind; [apply rel_rec_alloc|]. intros nout ? <-.
    eapply rel_bind; [apply g_rec_write0|]. intros r ? ->.
    set (P := mkDEParams F CR st con _ _ _ _ _ _ _ m nout _ _).
    set (P' := mkDEParams F CR st con _ _ _ _ _ _ (g (a_ftol a)) m nout _ _).
    change P' with (de_t P).
    assert (HK : KDe sync (de_p P) (mkDES X1 (nth gb X1 []) pf (nth gb pf n0) pf r)
                   (mkDES X1 (nth gb X1 []) (mg pf) (g (nth gb pf n0)) (mg pf) (onall g r))).
    { unfold KDe. cbn. repeat split; auto.
      - intros ->. cbn in Hgb. lia.
      - intros _. rewrite H3. exact HX.
      - apply V_nth; assumption. }
    assert (HV : forall s t, KDe sync (de_p P) s t -> view (de_drv P sync) (de_drv (de_t P) sync) s t).
    { intros s t (K1 & K2 & K3 & K4 & K5 & K6 & K7 & K8 & K9 & K10 & K11). repeat split; cbn; auto. }
    eapply rel_bind; [apply g_start, HV, HK|]. intros _ _ _.
    apply (g_drive _ _ (KDe sync (de_p P))); auto.
    - intros it s t HK'. apply g_de_step; auto.
    - intros it s t HK'. apply rel_ret. exact HK'.
  Qed.

  Definition de_with (A : DEArgs) : DEArgs :=
    mkDEArgs (with_ftol (g (a_ftol (dea A))) (dea A)) (dea_mutation A) (dea_recombination A)
             (dea_strategy A) (dea_updating A).

  Lemma g_de_minimize A : a_backend (dea A) <> Some "mpi"%string -> V (a_ftol (dea A)) ->
    rel' (de_minimize A) (de_minimize (de_with A)) (fun r r' => r' = onresult g r).
  Proof.
    intros HB HVt. unfold de_minimize, de_with.
    cbn [dea dea_mutation dea_recombination dea_strategy dea_updating].
    eapply rel_bind; [apply g_check_pop|]. intros ? ? HC. cbv beta in HC.
    eapply rel_bind; [apply rel_raise_if|]. intros _ _ _.
    eapply rel_bind; [apply rel_raise_if|]. intros _ _ _.
    eapply rel_bind; [apply rel_check_updating|]. intros _ _ _.
    eapply rel_bind; [apply rel_orelse|]. intros st ? <-.
    eapply rel_bind; [apply g_seed_and_cb; reflexivity|]. intros _ _ _.
    change (is_sync (dea_updating A) (with_ftol (g (a_ftol (dea A))) (dea A)))
      with (is_sync (dea_updating A) (dea A)).
    apply g_de; assumption.
  Qed.

  (** ** CPSO and PSO *)
  Definition ps_t (P : PSOParams) : PSOParams :=
    mkPSOParams (ps_w P) (ps_c1 P) (ps_c2 P) (ps_con P) (ps_gamma P) (ps_delta P) (ps_p P)
                (ps_d P) (ps_lower P) (ps_upper P) (ps_maxiter P) (ps_xtol P) (g (ps_ftol P))
                (ps_mode P) (ps_nout P) (ps_alias P) (ps_list P).

  Definition KPso (sync : bool) (p : nat) (a b : PSOS) : Prop :=
    pss_X a = pss_X b /\ pss_V a = pss_V b /\ pss_pbest a = pss_pbest b /\
    pss_gbest a = pss_gbest b /\ pss_pbestfit b = mg (pss_pbestfit a) /\
    pss_gfit b = g (pss_gfit a) /\ pss_pfit b = mg (pss_pfit a) /\
    pss_rec b = onall g (pss_rec a) /\ pss_pfit a <> [] /\
    (sync = false -> length (pss_pbestfit a) = p) /\
    Forall V (pss_pbestfit a) /\ V (pss_gfit a) /\ Forall V (pss_pfit a).

  Lemma g_pso_step P sync it a b : ps_mode P <> Mpi -> V (ps_ftol P) -> KPso sync (ps_p P) a b ->
    rel' (pso_step P sync it a) (pso_step (ps_t P) sync it b)
         (fun p q => KPso sync (ps_p P) (fst p) (fst q) /\ snd p = snd q).
  Proof.
    intros HM HVt HK. unfold pso_step.
    eapply rel_bind; [apply g_rand_mat|]. intros r1 ? <-.
    eapply rel_bind; [apply g_rand_mat|]. intros r2 ? <-.
    apply rel_bind with
      (Q := fun p q => KPso sync (ps_p P) (fst p) (fst q) /\ snd p = snd q).
    - destruct sync.
      + unfold pso_sync. eapply rel_bind; [apply rel_raise_if|]. intros _ _ _. cbn zeta.
        destruct HK as (K1 & K2 & K3 & K4 & K5 & K6 & K7 & K8 & K9 & K10 & K11 & K12 & K13).
        assert (HMV : pso_moves (ps_t P) r1 r2 b = pso_moves P r1 r2 a).
        { unfold pso_moves. rewrite <- K1, <- K2, <- K3, <- K4. reflexivity. }
        rewrite HMV, <- K3, <- K4, K5.
        eapply rel_bind; [eapply g_selection; [exact HVt | exact K11 | apply g_eval_pop; exact HM]|].
        intros s1 s2 (S1 & S2 & S3 & S4 & S5 & S6 & S7 & S8 & S9 & S10 & S11).
        apply rel_ret. unfold KPso. cbn. repeat split; auto; discriminate.
      + unfold pso_async. eapply rel_bind.
        * apply g_foldM with
            (K := fun p q : PSOS * option Z => KPso false (ps_p P) (fst p) (fst q) /\ snd p = snd q);
            [|split; [exact HK | reflexivity]].
          intros [s1 c1] [s2 c2] i Hi [HK' _]. cbn [fst] in HK'. unfold pso_async_one. cbn [fst]. cbn zeta.
          destruct HK' as (K1 & K2 & K3 & K4 & K5 & K6 & K7 & K8 & K9 & K10 & K11 & K12 & K13).
          rewrite <- K1, <- K2, <- K3, <- K4, K5, K6.
          change (pso_mutation (ps_t P)) with (pso_mutation P).
          set (xv := pso_mutation P _ _ _ _ _ _).
          eapply rel_bind; [apply rel_when, g_set_arg|]. intros _ _ _.
          eapply rel_bind.
          { apply g_selection_async; [exact HVt | exact K12 | exact K11 |]. rewrite (K10 eq_refl). apply in_seq in Hi. apply Hi. }
          intros t1 t2 ((S1 & S2 & S3 & S4 & S5 & S6 & S7 & S8 & S9) & SL).
          apply rel_ret. unfold KPso. cbn. repeat split; auto.
          -- rewrite K7, map_upd, S5. reflexivity.
          -- apply upd_nil, K9.
          -- intros _. rewrite SL. auto.
          -- apply V_upd; assumption.
        * intros [s1 c1] [s2 c2] [HK' Hc]. cbn in Hc. subst c2. apply rel_ret. split; [exact HK'|].
          reflexivity.
    - intros [s1 c1] [s2 c2] [HK' Hc]. cbn in Hc. subst c2. cbn [fst] in HK'.
      destruct HK' as (K1 & K2 & K3 & K4 & K5 & K6 & K7 & K8 & K9 & K10 & K11 & K12 & K13).
      cbn [ps_nout ps_maxiter ps_t]. cbv beta iota. rewrite <- K1, K7, K8.
      eapply rel_bind; [apply g_rec_write; apply g_best_row; [exact K9 | exact K13]|]. intros r ? ->.
      apply rel_ret. unfold KPso. cbn. repeat split; auto.
  Qed.

  (** Either restarts are off, or the marker 1e30 written by a restart is left alone by [g]. *)
  Definition MarkerKept (gamma : option T) : Prop :=
    truthy gamma = None \/ (g (nlit 1 30) = nlit 1 30 /\ V (nlit 1 30)).

  Lemma map_upd_many idx : forall rows v, mg (upd_many idx rows v) = upd_many idx (mg rows) (mg v).
  Proof.
    induction idx as [|i idx IH]; intros [|r rows] v; cbn [upd_many map]; try reflexivity.
    rewrite IH, map_upd. reflexivity.
  Qed.
  Lemma upd_many_len idx : forall (rows v : vec), length (upd_many idx rows v) = length v.
  Proof.
    induction idx as [|i idx IH]; intros [|r rows] v; cbn [upd_many]; try reflexivity.
    rewrite IH, upd_length. reflexivity.
  Qed.

  Lemma V_upd_many idx : forall rows v, Forall V rows -> Forall V v -> Forall V (upd_many idx rows v).
  Proof.
    induction idx as [|i idx IH]; intros [|r rows] v Hr Hv; cbn [upd_many]; try assumption.
    inversion Hr; subst. apply IH; [assumption|]. apply V_upd; assumption.
  Qed.

  Lemma g_pso_post P sync it a b :
    ps_gamma P = None \/ (g (nlit 1 30) = nlit 1 30 /\ V (nlit 1 30)) -> KPso sync (ps_p P) a b ->
    rel' (pso_post P it a) (pso_post (ps_t P) it b) (KPso sync (ps_p P)).
  Proof.
    intros HM HK. unfold pso_post. cbn [ps_gamma ps_t].
    destruct (ps_gamma P) as [gm|]; [|apply rel_ret; exact HK].
    destruct HM as [HM|[HM HVm]]; [discriminate|].
    pose proof HK as (K1 & K2 & K3 & K4 & K5 & K6 & K7 & K8 & K9 & K10 & K11 & K12 & K13).
    unfold restart. cbn [ps_delta ps_maxiter ps_p ps_d ps_lower ps_upper ps_t].
    rewrite <- K1, <- K4.
    destruct (nltb (swarm_radius _ _ _) _); [|apply rel_ret; exact HK].
    eapply rel_bind; [apply rel_raise_if|]. intros _ _ _.
    eapply rel_bind; [apply rel_orelse|]. intros nw ? <-.
    destruct (0 <? nw)%Z; [|apply rel_ret; exact HK]. cbn zeta.
    assert (HW : @worst N E' (pss_pbestfit b) (Z.to_nat nw) = worst (pss_pbestfit a) (Z.to_nat nw)).
    { unfold worst. rewrite K5. change (@e_argsort N E') with (@e_argsort N E).
      rewrite g_argsort by exact K11. reflexivity. }
    rewrite HW.
    eapply rel_bind; [apply g_uniform_mat|]. intros rows ? <-.
    unfold pso_set_alias. cbn [ps_alias ps_t].
    eapply rel_bind; [apply rel_when, g_set_arg|]. intros _ _ _.
    apply rel_ret. unfold KPso. cbn. rewrite <- K2, <- K3. repeat split; auto.
    - rewrite K5, map_upd_many. f_equal.
      clear -HM. induction (Z.to_nat nw) as [|n IH]; cbn; [reflexivity|]. rewrite HM, <- IH.
      reflexivity.
    - intro Hs. rewrite upd_many_len. auto.
    - apply V_upd_many; [|exact K11]. apply Forall_forall. intros y Hy. apply repeat_spec in Hy.
      rewrite Hy. exact HVm.
  Qed.

  Lemma g_cpso a sync iw c1 c2 gm : a_backend a <> Some "mpi"%string -> Checked a -> V (a_ftol a) ->
    MarkerKept gm ->
    rel' (cpso a sync iw c1 c2 gm) (cpso (with_ftol (g (a_ftol a)) a) sync iw c1 c2 gm)
         (fun r r' => r' = onresult g r).
  Proof.
    intros HB HC HVt HMK. unfold cpso.
    cbn [a_bounds with_ftol a_constraints a_popsize a_x0 a_x0_array a_return_all a_verbosity
         a_maxiter a_xtol a_ftol a_callback a_workers a_backend].
    eapply rel_bind; [apply g_eval_kind, HB|]. intros m ? [<- Hm].
    eapply rel_bind; [apply rel_unpack|]. intros [l u] ? <-.
    eapply rel_bind; [apply rel_orelse|]. intros con ? <-. cbn zeta.
    eapply rel_bind; [apply g_pop0, HC|]. intros X ? [<- HX].
    eapply rel_bind; [apply rel_raise_if|]. intros _ _ _.
    eapply rel_bind; [apply g_eval_pop, Hm|]. intros [X1 pf] [X2 pf'] (H1 & H2 & H3 & H4).
    cbn in H1, H2, H3, H4. subst X2 pf'.
    eapply rel_bind; [apply rel_when, g_set_arg|]. intros _ _ _.
    eapply rel_bind; [apply g_np_argmin, H4|]. intros gb ? [<- Hgb]. rewrite (g_nth gb) by exact Hgb.
    eapply rel_bind; [apply rel_rec_alloc|]. intros nout ? <-.
    eapply rel_bind; [apply g_rec_write0|]. intros r ? ->.
    set (P := mkPSOParams iw c1 c2 con _ _ _ _ _ _ _ _ _ m nout _ _).
    set (P' := mkPSOParams iw c1 c2 con _ _ _ _ _ _ _ _ (g (a_ftol a)) m nout _ _).
    change P' with (ps_t P).
    set (s1 := mkPSOS X1 _ _ _ pf _ _ _). set (s2 := mkPSOS X1 _ _ _ (mg pf) _ _ _).
    assert (HK : KPso sync (ps_p P) s1 s2).
    { unfold KPso, s1, s2. cbn. repeat split; auto.
      - intros ->. cbn in Hgb. lia.
      - intros _. rewrite H3. exact HX.
      - apply V_nth; assumption. }
    assert (HV : forall s t, KPso sync (ps_p P) s t ->
                   view (pso_drv P sync) (pso_drv (ps_t P) sync) s t).
    { intros s t (K1 & K2 & K3 & K4 & K5 & K6 & K7 & K8 & K9 & K10 & K11 & K12 & K13). repeat split; cbn; auto. }
    eapply rel_bind; [apply g_start, HV, HK|]. intros _ _ _.
    apply (g_drive _ _ (KPso sync (ps_p P))); auto.
    - intros it s t HK'. apply g_pso_step; auto.
    - intros it s t HK'. apply g_pso_post; auto.
  Qed.

  Definition cpso_with (A : CPSOArgs) : CPSOArgs :=
    mkCPSOArgs (with_ftol (g (a_ftol (pa A))) (pa A)) (pa_inertia A) (pa_cognitivity A)
               (pa_sociability A) (pa_competitivity A) (pa_updating A).

  Lemma g_cpso_minimize A : a_backend (pa A) <> Some "mpi"%string -> V (a_ftol (pa A)) ->
    MarkerKept (pa_competitivity A) ->
    rel' (cpso_minimize A) (cpso_minimize (cpso_with A)) (fun r r' => r' = onresult g r).
  Proof.
    intros HB HVt HMK. unfold cpso_minimize, cpso_with.
    cbn [pa pa_inertia pa_cognitivity pa_sociability pa_competitivity pa_updating].
    eapply rel_bind; [apply g_check_pop|]. intros ? ? HC. cbv beta in HC.
    do 4 (eapply rel_bind; [apply rel_raise_if|]; intros _ _ _).
    eapply rel_bind; [apply rel_check_updating|]. intros _ _ _.
    eapply rel_bind; [apply g_seed_and_cb; reflexivity|]. intros _ _ _.
    change (is_sync (pa_updating A) (with_ftol (g (a_ftol (pa A))) (pa A)))
      with (is_sync (pa_updating A) (pa A)).
    apply g_cpso; assumption.
  Qed.

  (** ** NA *)
  Definition na_t (P : NAParams) : NAParams :=
    mkNAParams (na_p P) (na_d P) (na_nr P) (na_lower P) (na_upper P) (na_maxiter P) (na_xtol P)
               (g (na_ftol P)) (na_mode P) (na_nout P).

  Definition KNa (a b : NAS) : Prop :=
    nas_X a = nas_X b /\ nas_pbest a = nas_pbest b /\ nas_gbest a = nas_gbest b /\
    nas_pbestfit b = mg (nas_pbestfit a) /\ nas_gfit b = g (nas_gfit a) /\
    nas_pfit b = mg (nas_pfit a) /\ nas_Xall a = nas_Xall b /\
    nas_Xallfit b = mg (nas_Xallfit a) /\ nas_rec b = onall g (nas_rec a) /\
    Forall V (nas_pbestfit a) /\ Forall V (nas_Xallfit a).

  Lemma g_na_eval P X : na_mode P <> Mpi ->
    rel' (na_eval P X) (na_eval (na_t P) X) (Evd (length X)).
  Proof.
    intro HM. unfold na_eval. cbn [na_mode na_t na_lower na_upper].
    eapply rel_bind; [apply g_eval_pop, HM|]. intros [a f] [b f'] (H1 & H2 & H3 & H4).
    apply rel_ret. unfold Evd. cbn in *. rewrite map_length in H3. auto.
  Qed.
  Lemma g_na_mutation P X f : Forall V f -> rel' (na_mutation P X f) (na_mutation (na_t P) X (mg f)) eq.
  Proof.
    intro HVf. unfold na_mutation. cbn [na_p na_nr na_lower na_upper na_t].
    change (@e_argsort N E') with (@e_argsort N E). rewrite g_argsort by exact HVf.
    apply rel_mapM. intros i _. unfold na_one. cbn [na_nr na_d na_t]. cbn zeta.
    eapply rel_bind; [|intros acc ? <-; apply rel_ret; reflexivity].
    apply rel_foldM. intros [[x d1] d2] j. unfold na_axis.
    destruct (negb _); [apply rel_ret; reflexivity|]. cbn zeta.
    eapply rel_bind; [apply g_uniform1|]. intros v ? <-.
    destruct (S j <? na_d P)%nat; apply rel_ret; reflexivity.
  Qed.

  Lemma g_na_step P it a b : na_mode P <> Mpi -> V (na_ftol P) -> KNa a b ->
    rel' (na_step P it a) (na_step (na_t P) it b)
         (fun p q => KNa (fst p) (fst q) /\ snd p = snd q).
  Proof.
    intros HM HVt (K1 & K2 & K3 & K4 & K5 & K6 & K7 & K8 & K9 & K10 & K11). unfold na_step.
    rewrite <- K7, <- K3, <- K2, K4, K8, K9.
    eapply rel_bind; [apply g_na_mutation, K11|]. intros X ? <-.
    eapply rel_bind; [eapply g_selection; [exact HVt | exact K10 | apply g_na_eval; exact HM]|].
    intros s1 s2 (S1 & S2 & S3 & S4 & S5 & S6 & S7 & S8 & S9 & S10 & S11). cbn zeta.
    cbn [na_nout na_maxiter na_lower na_upper na_t]. rewrite S6.
    eapply rel_bind.
    { apply g_rec_write. rewrite (g_best_row X) by assumption. reflexivity. }
    intros r ? ->. apply rel_ret. unfold KNa. cbn. rewrite map_app. repeat split; auto. apply Forall_app; auto.
  Qed.

  Lemma g_na a nr : a_backend a <> Some "mpi"%string -> Checked a -> V (a_ftol a) ->
    rel' (na a nr) (na (with_ftol (g (a_ftol a)) a) nr) (fun r r' => r' = onresult g r).
  Proof.
    intros HB HC HVt. unfold na.
    cbn [a_bounds with_ftol a_constraints a_popsize a_x0 a_x0_array a_return_all a_verbosity
         a_maxiter a_xtol a_ftol a_callback a_workers a_backend].
    eapply rel_bind; [apply g_eval_kind, HB|]. intros m ? [<- Hm].
    eapply rel_bind; [apply rel_unpack|]. intros [l u] ? <-.
    eapply rel_bind; [apply rel_orelse|]. intros n ? <-. cbn zeta.
    eapply rel_bind; [apply g_pop0, HC|]. intros X ? [<- HX].
    eapply rel_bind.
    { apply (g_na_eval (mkNAParams _ _ _ _ _ _ _ (a_ftol a) m None)). exact Hm. }
    intros [X1 pf] [X2 pf'] (H1 & H2 & H3 & H4). cbn in H1, H2, H3, H4. subst X2 pf'.
    eapply rel_bind; [apply g_np_argmin, H4|]. intros gb ? [<- Hgb]. rewrite (g_nth gb) by exact Hgb.
    eapply rel_bind; [apply rel_rec_alloc|]. intros nout ? <-.
    eapply rel_bind; [apply g_rec_write0|]. intros r ? ->.
    set (P := mkNAParams _ _ _ _ _ _ _ _ m nout).
    set (P' := mkNAParams _ _ _ _ _ _ _ (g (a_ftol a)) m nout).
    change P' with (na_t P).
    set (s1 := mkNAS _ _ _ pf _ _ _ _ _). set (s2 := mkNAS _ _ _ (mg pf) _ _ _ _ _).
    assert (HK : KNa s1 s2) by (unfold KNa, s1, s2; cbn; repeat split; assumption).
    assert (HV : forall s t, KNa s t -> view (na_drv P) (na_drv (na_t P)) s t).
    { intros s t (K1 & K2 & K3 & K4 & K5 & K6 & K7 & K8 & K9 & K10 & K11).
      repeat split; cbn; auto; congruence. }
    eapply rel_bind; [apply g_start, HV, HK|]. intros _ _ _.
    apply (g_drive _ _ KNa); auto.
    - intros it s t HK'. apply g_na_step; auto.
    - intros it s t HK'. apply rel_ret. exact HK'.
  Qed.

  Definition na_with (A : NAArgs) : NAArgs :=
    mkNAArgs (with_ftol (g (a_ftol (naa A))) (naa A)) (naa_nrperc A).

  Lemma g_na_minimize A : a_backend (naa A) <> Some "mpi"%string -> V (a_ftol (naa A)) ->
    rel' (na_minimize A) (na_minimize (na_with A)) (fun r r' => r' = onresult g r).
  Proof.
    intros HB HVt. unfold na_minimize, na_with. cbn [naa naa_nrperc].
    eapply rel_bind; [apply g_check_pop|]. intros ? ? HC. cbv beta in HC.
    eapply rel_bind; [apply rel_raise_if|]. intros _ _ _.
    eapply rel_bind; [apply g_seed_and_cb; reflexivity|]. intros _ _ _.
    apply g_na; assumption.
  Qed.

  (** ** CMA-ES and VD-CMA without constraints: the values decide the ranks and the moment of
      stopping, nothing else. *)
  Hypothesis HAO : @ArgsortOK N E.

  Definition cm_t (t : T) (P : CMAParams) : CMAParams :=
    mkCMAParams (cm_p P) (cm_d P) (cm_mu P) (cm_w P) (cm_mueff P) (cm_xm P) (cm_xstd P)
                (cm_pen P) (cm_maxiter P) (cm_xtol P) t (cm_insigma P) (cm_ilim P) (cm_mode P)
                (cm_nout P).

  (** Everything of a result except the status. *)
  Definition alike (r r' : OptRes) : Prop :=
    r_x r' = r_x r /\ r_fun r' = g (r_fun r) /\ r_nfev r' = r_nfev r /\ r_nit r' = r_nit r /\
    r_all r' = onall g (r_all r).

  (** Two runs that go the same way until one of them stops. *)
  Definition upto (m1 : @M N E OptRes) (m2 : @M N E' OptRes) : Prop :=
    forall s1 s2, RG s1 s2 ->
      (RG (snd (m1 s1)) (snd (m2 s2)) /\
       match fst (m1 s1), fst (m2 s2) with
       | inl a, inl b => alike a b
       | inr e, inr e' => e = e'
       | _, _ => False
       end) \/
      (exists a rest, fst (m1 s1) = inl a /\
         tr (snd (m2 s2)) = map (onevent g) (tr (snd (m1 s1))) ++ rest /\
         (forall b, fst (m2 s2) = inl b -> (r_nit a < r_nit b)%Z)) \/
      (exists b rest, fst (m2 s2) = inl b /\
         map (onevent g) (tr (snd (m1 s1))) = tr (snd (m2 s2)) ++ rest /\
         (forall a, fst (m1 s1) = inl a -> (r_nit b < r_nit a)%Z)).

  Lemma upto_bind {A B} (m1 : @M N E A) (m2 : @M N E' B) k1 k2 Q :
    rel' m1 m2 Q -> (forall a b, Q a b -> upto (k1 a) (k2 b)) -> upto (bind m1 k1) (bind m2 k2).
  Proof.
    intros H Hk s1 s2 HR. unfold bind. specialize (H s1 s2 HR).
    destruct (m1 s1) as [[a|e] t1], (m2 s2) as [[b|e'] t2]; cbn in H; destruct H as [HR' H];
      try contradiction.
    - apply Hk; auto.
    - subst. left. split; cbn; auto.
  Qed.

  Lemma drive_nit (EE : Env N) {S} (d : @Drv N EE S) cb : forall n it s st r,
    fst (drive d cb n it s st) = inl r -> (it < r_nit r)%Z.
  Proof.
    induction n as [|n IH]; intros it s st r; cbn [drive]; [discriminate|].
    unfold bind. destruct (d_step d (it + 1) s st) as [[[s' c]|e] st1]; [|discriminate].
    destruct (when cb _ st1) as [[u|e] st2]; [|discriminate].
    destruct c as [c|].
    - unfold result, bind. destruct (orelse _ _ st2) as [[m|e] st3]; [|discriminate].
      cbn. intros [= <-]. cbn. lia.
    - destruct (d_post d (it + 1) s' st2) as [[s2|e] st3]; [|discriminate].
      intro H. apply IH in H. lia.
  Qed.

  Lemma upto_drive {S} (d1 : @Drv N E S) (d2 : @Drv N E' S) (K : S -> S -> Prop) cb :
    (forall it a b, K a b ->
       rel' (d_step d1 it a) (d_step d2 it b)
            (fun p q => K (fst p) (fst q) /\ view d1 d2 (fst p) (fst q) /\
                        (forall c, snd p = Some c -> message c <> None) /\
                        (forall c, snd q = Some c -> message c <> None))) ->
    (forall it a b, K a b -> rel' (d_post d1 it a) (d_post d2 it b) K) ->
    (forall it a, disc (d_step d1 it a)) -> (forall it a, disc (d_step d2 it a)) ->
    (forall it a, disc (d_post d1 it a)) -> (forall it a, disc (d_post d2 it a)) ->
    forall n it a b, K a b -> upto (drive d1 cb n it a) (drive d2 cb n it b).
  Proof.
    intros HS HP D1 D2 D3 D4. induction n as [|n IH]; intros it a b HK; cbn [drive].
    { intros s1 s2 HR. left. cbn. auto. }
    eapply upto_bind; [apply HS; exact HK|].
    intros [a' c] [b' c'] (HK' & HV & Hc & Hc'). cbn [fst snd] in HK', HV, Hc, Hc'.
    apply upto_bind with (Q := eq).
    { apply g_start with (it := (it + 1)%Z). exact HV. }
    intros _ _ _. destruct HV as (V1 & V2 & V3 & V4 & V5).
    assert (Hres : forall (EE : Env N) (d : @Drv N EE S) s st x, message x <> None ->
              exists r, @result N EE S d (it + 1) s x st = (inl r, st) /\ r_nit r = (it + 1)%Z /\
                r_x r = d_x d s /\ r_fun r = d_fun d s /\ r_nfev r = d_nfev d (it + 1)%Z s /\
                r_all r = d_rec d s).
    { intros EE d s st x Hx. unfold result, bind. destruct (message x) as [m|]; [|congruence].
      cbn. eexists. split; [reflexivity|]. cbn. repeat split. }
    intros s1 s2 HR. destruct c as [c|], c' as [c'|].
    - destruct (Hres E d1 a' s1 c (Hc c eq_refl)) as (r & E1 & R1 & R2 & R3 & R4 & R5).
      destruct (Hres E' d2 b' s2 c' (Hc' c' eq_refl)) as (r' & E2 & R1' & R2' & R3' & R4' & R5').
      left. rewrite E1, E2. cbn [fst snd]. split; [exact HR|].
      unfold alike. rewrite R1, R2, R3, R4, R5, R1', R2', R3', R4', R5', V2, V3, V4, V5.
      repeat split.
    - destruct (Hres E d1 a' s1 c (Hc c eq_refl)) as (r & E1 & R1 & R2 & R3 & R4 & R5).
      right. left. rewrite E1. cbn [fst snd]. exists r.
      assert (HD : disc (s <- d_post d2 (it + 1) b' ;; drive d2 cb n (it + 1) s)).
      { apply disc_bind; [apply D4|]. intro s. apply disc_drive; auto. }
      destruct (HD s2) as (evs & He & _ & _). exists evs. split; [reflexivity|]. split.
      + rewrite He. destruct HR as (_ & _ & HR). rewrite HR. reflexivity.
      + intros y. unfold bind. destruct (d_post d2 (it + 1) b' s2) as [[s3|e] st3]; [|discriminate].
        intro Hy. apply drive_nit in Hy. lia.
    - destruct (Hres E' d2 b' s2 c' (Hc' c' eq_refl)) as (r' & E2 & R1' & R2' & R3' & R4' & R5').
      right. right. rewrite E2. cbn [fst snd]. exists r'.
      assert (HD : disc (s <- d_post d1 (it + 1) a' ;; drive d1 cb n (it + 1) s)).
      { apply disc_bind; [apply D3|]. intro s. apply disc_drive; auto. }
      destruct (HD s1) as (evs & He & _ & _). exists (map (onevent g) evs).
      split; [reflexivity|]. split.
      + rewrite He, map_app. destruct HR as (_ & _ & HR). rewrite HR. reflexivity.
      + intros y. unfold bind. destruct (d_post d1 (it + 1) a' s1) as [[s3|e] st3]; [|discriminate].
        intro Hy. apply drive_nit in Hy. lia.
    - revert s1 s2 HR. change (upto (s <- d_post d1 (it + 1) a' ;; drive d1 cb n (it + 1) s)
                                    (s <- d_post d2 (it + 1) b' ;; drive d2 cb n (it + 1) s)).
      eapply upto_bind; [apply HP; exact HK'|]. intros u v Huv. apply IH, Huv.
  Qed.

  Lemma g_randn_vec d : rel' (randn_vec d) (randn_vec d) eq.
  Proof. apply rel_replicateM. exact (g_draw e_randn). Qed.

  Lemma g_cma_eval P t X : cm_mode P <> Mpi ->
    rel' (cma_eval P X) (cma_eval (cm_t t P) X) (fun u v => v = mg u /\ length u = length X /\ Forall V u).
  Proof.
    intro HM. unfold cma_eval. cbn [cm_mode cm_t].
    eapply rel_bind; [apply g_eval_pop, HM|]. intros [a f] [b f'] (H1 & H2 & H3 & H4).
    apply rel_ret. cbn in *. rewrite map_length in H3. auto.
  Qed.

  Lemma g_cma_fitness P t arx xm x1 x2 sg dC it pen : cm_mode P <> Mpi -> cm_pen P = false ->
    rel' (cma_fitness P arx xm x1 sg dC it pen) (cma_fitness (cm_t t P) arx xm x2 sg dC it pen)
         (fun u v => v = (mg (fst (fst u)), snd (fst u), snd u) /\
                     length (fst (fst u)) = length arx /\ Forall V (fst (fst u))).
  Proof.
    intros HM HP. unfold cma_fitness. cbn [cm_pen cm_t]. rewrite HP.
    eapply rel_bind; [apply g_cma_eval, HM|]. intros f ? (-> & Hf & HVf). apply rel_ret. auto.
  Qed.

  Lemma g_cma_record P t it v f r : f <> [] -> Forall V f ->
    rel' (cma_record P it v f r) (cma_record (cm_t t P) it v (mg f) (onall g r))
         (fun a b => b = onall g a).
  Proof.
    intros Hf HVf. unfold cma_record. cbn [cm_nout cm_maxiter cm_t].
    apply g_rec_write. rewrite g_best_row by assumption. reflexivity.
  Qed.

  Lemma g_hist P t it v w h h' :
    rel' (hist_set P it v h) (hist_set (cm_t t P) it w h') (fun _ _ => True).
  Proof.
    unfold hist_set. cbn [cm_maxiter cm_t]. destruct (_ <? _)%Z; [apply rel_raise|].
    apply rel_ret. exact I.
  Qed.

  Lemma g_first f : f <> [] -> nth 0 (e_argsort f) 0 < length f.
  Proof.
    intro H. pose proof (proj1 HAO f) as Hp. assert (HL := Permutation_length Hp).
    rewrite seq_length in HL.
    assert (HI : In (nth 0 (e_argsort f) 0) (e_argsort f)).
    { apply nth_In. destruct f; [congruence|]. cbn in HL. unfold vec in *. rewrite HL. cbn. lia. }
    apply (Permutation_in _ Hp) in HI. apply in_seq in HI. vl.
  Qed.

  Lemma converge_message it d mi xm xo h f b sg isg il pc xt ft dC BD c :
    converge it d mi xm xo h f b sg isg il pc xt ft dC BD = Some c -> message c <> None.
  Proof.
    unfold converge. repeat match goal with |- (if ?b then _ else _) = _ -> _ => destruct b end;
      intros [= <-]; discriminate.
  Qed.

  Lemma g_replicateM_len {A} n (m1 : @M N E A) (m2 : @M N E' A) :
    rel' m1 m2 eq ->
    rel' (replicateM n m1) (replicateM n m2) (fun u v => u = v /\ length u = n).
  Proof.
    intro H. induction n as [|n IH]; cbn [replicateM]; [apply rel_ret; split; reflexivity|].
    eapply rel_bind; [exact H|]. intros a b <-.
    eapply rel_bind; [exact IH|]. intros l l' [<- HL]. apply rel_ret.
    split; [reflexivity | cbn; congruence].
  Qed.

  Definition KCm (a b : CMAS) : Prop :=
    exists h f, b = mkCMAS (cs_xmean a) (cs_xold a) (cs_pc a) (cs_ps a) (cs_B a) (cs_D a) (cs_C a)
                           (cs_inv a) (cs_sigma a) (cs_pen a) (cs_nfev a) (cs_eigeneval a) h
                           (cs_valid a) f (cs_index a) (onall g (cs_rec a)).

  Lemma g_cma_step P t it a b : cm_mode P <> Mpi -> cm_pen P = false -> 0 < cm_p P -> KCm a b ->
    rel' (cma_step P it a) (cma_step (cm_t t P) it b)
         (fun p q => KCm (fst p) (fst q) /\ view (cma_drv P) (cma_drv (cm_t t P)) (fst p) (fst q) /\
                     (forall c, snd p = Some c -> message c <> None) /\
                     (forall c, snd q = Some c -> message c <> None)).
  Proof.
    intros HM HP Hp (h0 & f0 & ->). unfold cma_step.
    cbn [cs_xmean cs_xold cs_pc cs_ps cs_B cs_D cs_C cs_inv cs_sigma cs_pen cs_nfev
         cs_eigeneval cs_hist cs_valid cs_fit cs_index cs_rec].
    apply rel_bind with (Q := fun u v => u = v /\ length u = cm_p P).
    { unfold cma_sample. cbn [cs_xmean cs_B cs_D cs_sigma cm_p cm_d cm_t].
      apply g_replicateM_len. eapply rel_bind; [apply g_randn_vec|]. intros z ? <-.
      apply rel_ret. reflexivity. }
    intros arx ? [<- Harx].
    eapply rel_bind; [apply g_cma_fitness; assumption|].
    intros [[fit valid] pen] ? (-> & Hfit & HVf). cbn [fst snd] in *. cbn zeta.
    assert (Hne : fit <> []) by (intros ->; cbn in Hfit; vl).
    eapply rel_bind; [apply g_cma_record; assumption|]. intros r ? ->.
    change (@e_argsort N E') with (@e_argsort N E). change (@e_eigh N E') with (@e_eigh N E).
    rewrite g_argsort by exact HVf.
    cbn [cm_t cm_d cm_mueff cm_p cm_mu cm_w cm_maxiter cm_insigma cm_ilim cm_xtol cm_ftol].
    eapply rel_bind; [apply g_hist|]. intros h h' _.
    apply rel_bind with (Q := eq).
    - match goal with |- @rel _ _ _ _ _ _ (if ?b then _ else _) (if ?c then _ else _) _ =>
        change c with b; destruct b end; [|apply rel_ret; reflexivity].
      eapply rel_bind; [apply rel_orelse|]. intros [D B] ? <-. apply rel_ret. reflexivity.
    - intros [[[[B D] C] inv] ee] ? <-. apply rel_ret. cbn [fst snd].
      split; [|split; [|split; intro c; apply converge_message]].
      + exists h', (mg fit). reflexivity.
      + repeat split; cbn; auto. unfold cma_best. cbn. apply g_nth, g_first, Hne.
  Qed.

  Definition KVd (a b : VDS) : Prop :=
    exists h f, b = mkVDS (vs_xmean a) (vs_xold a) (vs_dx a) (vs_ps a) (vs_dvec a) (vs_vvec a)
                          (vs_nv2 a) (vs_nv a) (vs_vn a) (vs_vnn a) (vs_pc a) (vs_inj a)
                          (vs_sigma a) (vs_pen a) (vs_nfev a) h (vs_valid a) f (vs_index a)
                          (onall g (vs_rec a)).

  Lemma g_vd_step P t it a b : cm_mode P <> Mpi -> cm_pen P = false -> 0 < cm_p P -> KVd a b ->
    rel' (vd_step P it a) (vd_step (cm_t t P) it b)
         (fun p q => KVd (fst p) (fst q) /\ view (vd_drv P) (vd_drv (cm_t t P)) (fst p) (fst q) /\
                     (forall c, snd p = Some c -> message c <> None) /\
                     (forall c, snd q = Some c -> message c <> None)).
  Proof.
    intros HM HP Hp (h0 & f0 & ->). unfold vd_step.
    apply rel_bind with (Q := fun u v => u = v /\ length u = cm_p P).
    { unfold vd_sample. cbn [cm_p cm_d cm_t vs_nv2 vs_dvec vs_vn vs_inj vs_dx vs_vvec].
      eapply rel_bind; [apply g_replicateM_len, g_randn_vec|]. intros arz ? [<- Hz]. cbn zeta.
      destruct (vs_inj a); [|apply rel_ret; split; [reflexivity | rewrite map_length; exact Hz]].
      eapply rel_bind; [apply g_randn_vec|]. intros z ? <-.
      eapply rel_bind; [apply rel_raise_if|]. intros _ _ _. apply rel_ret.
      split; [reflexivity|]. rewrite !upd_length, map_length. exact Hz. }
    intros ary ? [<- Hary]. cbn zeta.
    cbn [vs_xmean vs_xold vs_dx vs_ps vs_dvec vs_vvec vs_nv2 vs_nv vs_vn vs_vnn vs_pc
         vs_inj vs_sigma vs_pen vs_nfev vs_hist vs_valid vs_fit vs_index vs_rec].
    eapply rel_bind; [apply g_cma_fitness; assumption|].
    intros [[fit valid] pen] ? (-> & Hfit & HVf). cbn [fst snd] in *. cbn zeta. rewrite map_length in Hfit.
    assert (Hne : fit <> []) by (intros ->; cbn in Hfit; vl).
    eapply rel_bind; [apply g_cma_record; assumption|]. intros r ? ->.
    change (@e_argsort N E') with (@e_argsort N E). rewrite g_argsort by exact HVf.
    cbn [cm_t cm_d cm_mueff cm_p cm_mu cm_w cm_maxiter cm_insigma cm_ilim cm_xtol cm_ftol].
    eapply rel_bind; [apply g_hist|]. intros h h' _.
    match goal with |- context [vd_sigma (cm_t t P) ?s ?i] =>
      change (vd_sigma (cm_t t P) s i) with (vd_sigma P a i) end.
    destruct (vd_sigma P a (e_argsort fit)) as [[ps sg] cond].
    destruct (vd_update _ _ _ _ _ _ _ _ _ _ _ _ _ _ _) as [vv dv].
    apply rel_ret. cbn [fst snd].
    split; [|split; [|split; intro c; apply converge_message]].
    - exists h', (mg fit). reflexivity.
    - repeat split; cbn; auto. unfold vd_best. cbn. apply g_nth, g_first, Hne.
  Qed.

  Lemma g_cma_check A t :
    rel' (cma_check A) (cma_check (mkCMAArgs (with_ftol t (caa A)) (caa_sigma A) (caa_muperc A))) eq.
  Proof.
    unfold cma_check. cbn [caa caa_sigma caa_muperc with_ftol a_callable a_bounds a_x0].
    do 5 (eapply rel_bind; [apply rel_raise_if|]; intros _ _ _).
    apply g_seed_and_cb; reflexivity.
  Qed.
  Lemma g_cma_alloc a t :
    rel' (cma_alloc a) (cma_alloc (with_ftol t a)) (fun u v => u = v /\ (0 < a_popsize a)%Z).
  Proof.
    unfold cma_alloc. cbn [with_ftol a_bounds a_return_all a_verbosity a_popsize a_maxiter].
    eapply rel_bind; [apply rel_rec_alloc|]. intros nout ? <-.
    eapply rel_bind; [apply rel_raise_if|]. intros _ _ _.
    eapply rel_bind; [apply g_raise_if|]. intros ? ? H1. cbv beta in H1.
    eapply rel_bind; [apply g_raise_if|]. intros ? ? H2. cbv beta in H2.
    eapply rel_bind; [apply rel_orelse|]. intros i ? <-. apply rel_ret.
    apply Z.eqb_neq in H1. apply Z.ltb_ge in H2. split; [reflexivity | lia].
  Qed.
  Lemma g_cma_setup A t : a_backend (caa A) <> Some "mpi"%string -> a_constraints (caa A) = None ->
    rel' (cma_setup A) (cma_setup (mkCMAArgs (with_ftol t (caa A)) (caa_sigma A) (caa_muperc A)))
         (fun p q => fst p = fst q /\ snd q = cm_t t (snd p) /\ cm_mode (snd p) <> Mpi /\
                     cm_pen (snd p) = false /\ cm_p (snd p) = Z.to_nat (a_popsize (caa A))).
  Proof.
    intros HB HC. unfold cma_setup. cbn [caa caa_sigma caa_muperc].
    cbn [with_ftol a_bounds a_constraints a_x0 a_popsize a_maxiter a_xtol a_ftol a_workers a_backend].
    eapply rel_bind; [apply g_eval_kind, HB|]. intros m ? [<- Hm].
    eapply rel_bind; [apply rel_unpack|]. intros [l u] ? <-. cbn zeta. rewrite HC.
    apply rel_bind with (Q := fun x y => x = y /\ x = false); [apply rel_ret; auto|].
    intros pen ? [<- ->].
    apply rel_bind with (Q := eq).
    { destruct (a_x0 (caa A)); [apply rel_ret; reflexivity | apply rel_replicateM, g_uniform]. }
    intros xm ? <-. eapply rel_bind; [apply rel_orelse|]. intros mu ? <-. apply rel_ret.
    cbn. auto.
  Qed.

  Definition cma_with (t : T) (A : CMAArgs) : CMAArgs :=
    mkCMAArgs (with_ftol t (caa A)) (caa_sigma A) (caa_muperc A).

  Lemma g_cmaes A t : a_backend (caa A) <> Some "mpi"%string -> a_constraints (caa A) = None ->
    upto (cmaes_minimize A) (cmaes_minimize (cma_with t A)).
  Proof.
    intros HB HC. unfold cmaes_minimize, cma_with.
    eapply upto_bind; [apply g_cma_check|]. intros _ _ _. unfold cmaes. cbn [caa caa_sigma].
    eapply upto_bind; [apply (g_cma_setup A t HB HC)|].
    intros [xm P] [xm' P'] (E0 & E1 & E2 & E3 & E4). cbn [fst snd] in *. subst xm' P'.
    eapply upto_bind; [apply g_cma_alloc|]. intros [nout ilim] ? [<- Hpop].
    cbn [cm_t cm_p cm_d cm_mu cm_w cm_mueff cm_xm cm_xstd cm_pen cm_maxiter cm_xtol cm_ftol
         cm_insigma cm_ilim cm_mode cm_nout with_ftol a_maxiter].
    change (has_cb (with_ftol t (caa A))) with (has_cb (caa A)).
    set (P1 := mkCMAParams (cm_p P) (cm_d P) (cm_mu P) (cm_w P) (cm_mueff P) (cm_xm P) (cm_xstd P)
                           (cm_pen P) (cm_maxiter P) (cm_xtol P) (cm_ftol P) (cm_insigma P)
                           ilim (cm_mode P) nout).
    change (mkCMAParams (cm_p P) (cm_d P) (cm_mu P) (cm_w P) (cm_mueff P) (cm_xm P) (cm_xstd P)
                        (cm_pen P) (cm_maxiter P) (cm_xtol P) t (cm_insigma P)
                        ilim (cm_mode P) nout) with (cm_t t P1).
    apply (upto_drive (cma_drv P1) (cma_drv (cm_t t P1)) KCm).
    - intros it a b HK. apply g_cma_step; auto. cbn. rewrite E4. lia.
    - intros it a b HK. apply rel_ret. exact HK.
    - intros; apply disc_cma_step.
    - intros; apply disc_cma_step.
    - intros; apply disc_ret.
    - intros; apply disc_ret.
    - eexists _, _. cbn. destruct nout; reflexivity.
  Qed.

  Lemma g_vdcma A t : a_backend (caa A) <> Some "mpi"%string -> a_constraints (caa A) = None ->
    upto (vdcma_minimize A) (vdcma_minimize (cma_with t A)).
  Proof.
    intros HB HC. unfold vdcma_minimize, cma_with.
    eapply upto_bind; [apply g_cma_check|]. intros _ _ _. unfold vdcma. cbn [caa caa_sigma].
    eapply upto_bind; [apply (g_cma_setup A t HB HC)|].
    intros [xm P] [xm' P'] (E0 & E1 & E2 & E3 & E4). cbn [fst snd] in *. subst xm' P'.
    cbn [cm_t cm_d].
    eapply upto_bind; [apply g_randn_vec|]. intros z ? <-. cbn zeta.
    eapply upto_bind; [apply g_cma_alloc|]. intros [nout ilim] ? [<- Hpop].
    cbn [cm_t cm_p cm_d cm_mu cm_w cm_mueff cm_xm cm_xstd cm_pen cm_maxiter cm_xtol cm_ftol
         cm_insigma cm_ilim cm_mode cm_nout with_ftol a_maxiter].
    change (has_cb (with_ftol t (caa A))) with (has_cb (caa A)).
    set (P1 := mkCMAParams (cm_p P) (cm_d P) (cm_mu P) (cm_w P) (cm_mueff P) (cm_xm P) (cm_xstd P)
                           (cm_pen P) (cm_maxiter P) (cm_xtol P) (cm_ftol P) (cm_insigma P)
                           ilim (cm_mode P) nout).
    change (mkCMAParams (cm_p P) (cm_d P) (cm_mu P) (cm_w P) (cm_mueff P) (cm_xm P) (cm_xstd P)
                        (cm_pen P) (cm_maxiter P) (cm_xtol P) t (cm_insigma P)
                        ilim (cm_mode P) nout) with (cm_t t P1).
    apply (upto_drive (vd_drv P1) (vd_drv (cm_t t P1)) KVd).
    - intros it a b HK. apply g_vd_step; auto. cbn. rewrite E4. lia.
    - intros it a b HK. apply rel_ret. exact HK.
    - intros; apply disc_vd_step.
    - intros; apply disc_vd_step.
    - intros; apply disc_ret.
    - intros; apply disc_ret.
    - eexists _, _. cbn. destruct nout; reflexivity.
  Qed.
End Mono.

(** ** The claims *)
Section Claims.
  Context {N : Num} {E : Env N}.
  Variable g : T -> T.
  Variable V : T -> Prop.
  Hypothesis HG : Increasing g V.
  Hypothesis HF : ValuesIn E V.
  Variable cb' : matrix -> CbState -> @RNG N E * @US N E -> option nat * (@RNG N E * @US N E).
  Hypothesis HCB : forall X st w, cb' X (onstate g st) w = e_cb X st w.
  Hypothesis HOK : @EnvOK N E.
  Hypothesis HAS : OrderOnly E.
  Let E' : Env N := transformed g E cb'.

  (** The transformed run does the same and reports the transformed values. *)
  Definition SameRun (m : @M N E OptRes) (m' : @M N E' OptRes) : Prop :=
    forall w a0,
      let (r, st) := exec m w a0 in
      let (r', st') := exec m' w a0 in
      rs st' = rs st /\ argbuf st' = argbuf st /\ tr st' = map (onevent g) (tr st) /\
      match r with
      | inl a => r' = inl (onresult g a)
      | inr e => r' = inr e
      end.

  Lemma rel_SameRun (m : @M N E OptRes) (m' : @M N E' OptRes) :
    @rel N E E' (RG g cb') _ _ m m' (fun r r' => r' = onresult g r) -> SameRun m m'.
  Proof.
    intros H w a0. destruct (H (mkSt w [] a0) (@mkSt N E' w [] a0)) as [(H1 & H2 & H3) H4].
    { repeat split. }
    unfold exec. destruct (m _) as [r st], (m' _) as [r' st']. cbn [fst snd] in *.
    repeat split; auto. destruct r, r'; try contradiction; congruence.
  Qed.

  Theorem C60_de A : a_backend (dea A) <> Some "mpi"%string -> V (a_ftol (dea A)) ->
    SameRun (de_minimize A)
            (de_minimize (mkDEArgs (with_ftol (g (a_ftol (dea A))) (dea A)) (dea_mutation A)
                                   (dea_recombination A) (dea_strategy A) (dea_updating A))).
  Proof.
    intros HB HVt. apply rel_SameRun. apply (g_de_minimize g V HG HF cb' HCB); auto. apply HOK.
  Qed.

  Theorem C60_cpso A : a_backend (pa A) <> Some "mpi"%string -> V (a_ftol (pa A)) ->
    pa_competitivity A = None \/ (g (nlit 1 30) = nlit 1 30 /\ V (nlit 1 30)) ->
    SameRun (cpso_minimize A)
            (cpso_minimize (mkCPSOArgs (with_ftol (g (a_ftol (pa A))) (pa A)) (pa_inertia A)
                             (pa_cognitivity A) (pa_sociability A) (pa_competitivity A)
                             (pa_updating A))).
  Proof.
    intros HB HVt HM. apply rel_SameRun. apply (g_cpso_minimize g V HG HF cb' HCB); auto; [apply HOK|].
    destruct HM as [HM|HM]; [left; rewrite HM; reflexivity | right; exact HM].
  Qed.

  Theorem C60_pso A : a_backend (psa A) <> Some "mpi"%string -> V (a_ftol (psa A)) ->
    SameRun (pso_minimize A)
            (pso_minimize (mkPSOArgs (with_ftol (g (a_ftol (psa A))) (psa A)) (psa_inertia A)
                             (psa_cognitivity A) (psa_sociability A) (psa_updating A))).
  Proof.
    intros HB HVt.
    exact (C60_cpso (mkCPSOArgs (psa A) (psa_inertia A) (psa_cognitivity A) (psa_sociability A)
                                None (psa_updating A)) HB HVt (or_introl eq_refl)).
  Qed.

  Theorem C60_na A : a_backend (naa A) <> Some "mpi"%string -> V (a_ftol (naa A)) ->
    SameRun (na_minimize A)
            (na_minimize (mkNAArgs (with_ftol (g (a_ftol (naa A))) (naa A)) (naa_nrperc A))).
  Proof.
    intros HB HVt. apply rel_SameRun. apply (g_na_minimize g V HG HF cb' HCB); auto. apply HOK.
  Qed.

  (** cmaes and vdcma: the transformed run, with any ftol, goes the same way until one of the two
      stops; if both return after the same number of iterations they differ in the status only. *)
  Definition SameUntilStop (m : @M N E OptRes) (m' : @M N E' OptRes) : Prop :=
    forall w a0,
      let (r, st) := exec m w a0 in
      let (r', st') := exec m' w a0 in
      (exists rest, tr st' = map (onevent g) (tr st) ++ rest \/
                    map (onevent g) (tr st) = tr st' ++ rest) /\
      (forall a a', r = inl a -> r' = inl a' -> r_nit a = r_nit a' ->
         tr st' = map (onevent g) (tr st) /\ r_x a' = r_x a /\ r_fun a' = g (r_fun a) /\
         r_nfev a' = r_nfev a /\ r_all a' = onall g (r_all a)).

  Lemma upto_Same (m : @M N E OptRes) (m' : @M N E' OptRes) : upto g cb' m m' -> SameUntilStop m m'.
  Proof.
    intros H w a0. destruct (H (mkSt w [] a0) (@mkSt N E' w [] a0)) as [H1 | [H1 | H1]].
    { repeat split. }
    - unfold exec. destruct (m _) as [r st], (m' _) as [r' st']. cbn [fst snd] in *.
      destruct H1 as [(R1 & R2 & R3) H1]. split.
      + exists []. left. rewrite app_nil_r. exact R3.
      + intros a a' -> -> _. destruct H1 as (A1 & A2 & A3 & A4 & A5). auto.
    - unfold exec. destruct (m _) as [r st], (m' _) as [r' st']. cbn [fst snd] in *.
      destruct H1 as (a & rest & -> & R & H1). split; [exists rest; left; exact R|].
      intros b b' [= <-] -> Hn. specialize (H1 b' eq_refl). lia.
    - unfold exec. destruct (m _) as [r st], (m' _) as [r' st']. cbn [fst snd] in *.
      destruct H1 as (a & rest & -> & R & H1). split; [exists rest; right; exact R|].
      intros b b' -> [= <-] Hn. specialize (H1 b eq_refl). lia.
  Qed.

  Theorem C60_cmaes A t : a_backend (caa A) <> Some "mpi"%string -> a_constraints (caa A) = None ->
    SameUntilStop (cmaes_minimize A)
      (cmaes_minimize (mkCMAArgs (with_ftol t (caa A)) (caa_sigma A) (caa_muperc A))).
  Proof.
    intros HB HC. apply upto_Same. apply (g_cmaes g V HG HF cb' HCB); auto; apply HOK.
  Qed.

  Theorem C60_vdcma A t : a_backend (caa A) <> Some "mpi"%string -> a_constraints (caa A) = None ->
    SameUntilStop (vdcma_minimize A)
      (vdcma_minimize (mkCMAArgs (with_ftol t (caa A)) (caa_sigma A) (caa_muperc A))).
  Proof.
    intros HB HC. apply upto_Same. apply (g_vdcma g V HG HF cb' HCB); auto; apply HOK.
  Qed.
End Claims.
