(** The optimizers in two environments that differ only in the scheduler, the MPI collectives
    and the contents of [np.empty], and with two ways of evaluating a population. *)
From Verif Require Import Base Num Env Common DE CPSO NA CMAES VDCMA Rel Hoare.

(** [E] with another scheduler, other MPI collectives and other uninitialised memory. *)
Definition vary {N : Num} (E : Env N) (sched : nat -> @RNG N E * @US N E -> list nat)
    (rank size : nat) (bc : nat -> matrix -> matrix) (ar : nat -> matrix -> vec -> vec)
    (emp : nat -> vec) : Env N :=
  @mkEnv N (@RNG N E) (@US N E) (@e_seed N E) (@e_rand N E) (@e_randn N E) (@e_perm N E)
         (@e_randint N E) (@e_fun N E) (@e_cb N E) (@e_scb N E) sched rank size bc ar
         (@e_argsort N E) (@e_percentile N E) (@e_median N E) (@e_eigh N E) emp.

(** The arguments of [a] with other [workers] and [backend]. *)
Definition set_workers {N : Num} (w : Z) (b : option string) (a : Args) : Args :=
  mkArgs (a_callable a) (a_bounds a) (a_x0 a) (a_x0_array a) (a_maxiter a) (a_popsize a)
         (a_seed a) (a_xtol a) (a_ftol a) (a_constraints a) w b (a_return_all a)
         (a_verbosity a) (a_callback a).

Section Vary.
  Context {N : Num} {E : Env N}.
  Variables (sched : nat -> @RNG N E * @US N E -> list nat) (rank size : nat)
            (bc : nat -> matrix -> matrix) (ar : nat -> matrix -> vec -> vec)
            (emp : nat -> vec).
  Let E' : Env N := vary E sched rank size bc ar emp.

  (** What the traces of the two runs have in common. *)
  Variable RT : list event -> list event -> Prop.
  Hypothesis RT_cb : forall l1 l2 X st r, RT l1 l2 -> RT (l1 ++ [ECb X st r]) (l2 ++ [ECb X st r]).
  (** needed only for immediate updating, where single points are evaluated *)
  Variable imm : bool.
  Hypothesis RT_ev : imm = true ->
    forall l1 l2 x r, RT l1 l2 -> RT (l1 ++ [EEval x r]) (l2 ++ [EEval x r]).

  Definition RS (s1 : @St N E) (s2 : @St N E') : Prop :=
    rs s1 = rs s2 /\ argbuf s1 = argbuf s2 /\ RT (tr s1) (tr s2).

  Notation rel' := (@rel N E E' RS).

  Lemma rel_draw {A} (f : @RNG N E -> A * @RNG N E) :
    rel' (@draw N E A f) (@draw N E' A f) eq.
  Proof.
    intros s1 s2 [H1 [H2 H3]]. unfold draw.
    change (@RNG N E') with (@RNG N E). change (@US N E') with (@US N E).
    rewrite <- H1. destruct (f (fst (rs s1))) as [a r]. unfold RS. cbn. auto.
  Qed.
  Lemma rel_rand : rel' rand rand eq. Proof. exact (rel_draw e_rand). Qed.
  Lemma rel_randn : rel' randn randn eq. Proof. exact (rel_draw e_randn). Qed.
  Lemma rel_perm n : rel' (perm n) (perm n) eq. Proof. exact (rel_draw (e_perm n)). Qed.
  Lemma rel_randint n : rel' (randint n) (randint n) eq.
  Proof. exact (rel_draw (e_randint n)). Qed.
  Lemma rel_seed o : rel' (seed o) (seed o) eq.
  Proof.
    destruct o as [z|]; [|apply rel_ret; reflexivity].
    intros s1 s2 [H1 [H2 H3]]. unfold RS. cbn. rewrite <- H1. auto.
  Qed.
  Lemma rel_set_arg X : rel' (set_arg X) (set_arg X) eq.
  Proof. intros s1 s2 [H1 [H2 H3]]. unfold RS. cbn. auto. Qed.
  Lemma rel_call_fun x : imm = true -> rel' (call_fun x) (call_fun x) eq.
  Proof.
    intros HI s1 s2 [H1 [H2 H3]]. unfold call_fun.
    change (@e_fun N E') with (@e_fun N E). rewrite <- H1.
    change (@RNG N E') with (@RNG N E). change (@US N E') with (@US N E).
    destruct (e_fun x (rs s1)) as [r w]. unfold RS. cbn. split; [auto|]. destruct r; reflexivity.
  Qed.
  Lemma rel_call_cb X st : rel' (call_cb X st) (call_cb X st) eq.
  Proof.
    intros s1 s2 [H1 [H2 H3]]. unfold call_cb.
    change (@e_cb N E') with (@e_cb N E). rewrite <- H1.
    change (@RNG N E') with (@RNG N E). change (@US N E') with (@US N E).
    destruct (e_cb X st (rs s1)) as [r w]. unfold RS. cbn. split; [auto|]. destruct r; reflexivity.
  Qed.

  Lemma rel_uniform lo hi : rel' (uniform lo hi) (uniform lo hi) eq.
  Proof.
    eapply rel_bind; [apply rel_rand|]. intros a b <-. apply rel_ret. reflexivity.
  Qed.
  Lemma rel_urange l u : rel' (urange l u) (urange l u) eq.
  Proof. unfold urange. destruct (frange _ _); [apply rel_ret; reflexivity|apply rel_raise]. Qed.
  Lemma rel_uniform1 l u : rel' (uniform1 l u) (uniform1 l u) eq.
  Proof. eapply rel_bind; [apply rel_urange|]. intros ? ? _. apply rel_uniform. Qed.
  Lemma rel_uniform_row l u : rel' (uniform_row l u) (uniform_row l u) eq.
  Proof. apply rel_mapM. intros. apply rel_uniform. Qed.
  Lemma rel_uniform_vec l u : rel' (uniform_vec l u) (uniform_vec l u) eq.
  Proof. eapply rel_bind; [apply rel_urange|]. intros ? ? _. apply rel_uniform_row. Qed.
  Lemma rel_uniform_mat p l u : rel' (uniform_mat p l u) (uniform_mat p l u) eq.
  Proof. eapply rel_bind; [apply rel_urange|]. intros ? ? _. apply rel_replicateM, rel_uniform_row. Qed.
  Lemma rel_rand_mat p d : rel' (rand_mat p d) (rand_mat p d) eq.
  Proof. apply rel_replicateM, rel_replicateM, rel_rand. Qed.
  Lemma rel_randn_vec d : rel' (randn_vec d) (randn_vec d) eq.
  Proof. apply rel_replicateM, rel_randn. Qed.
  Lemma rel_lhs p d l u : rel' (lhs p d l u) (lhs p d l u) eq.
  Proof.
    eapply rel_bind; [apply rel_rand_mat|]. intros a b <-. cbn zeta.
    eapply rel_bind; [apply rel_replicateM, rel_perm|]. intros c c' <-.
    apply rel_ret. reflexivity.
  Qed.

  Lemma rel_seed_and_cb a b :
    a_seed a = a_seed b -> a_callback a = a_callback b ->
    rel' (seed_and_cb a) (seed_and_cb b) eq.
  Proof.
    intros H1 H2. unfold seed_and_cb. rewrite H1, H2.
    eapply rel_bind; [apply rel_seed|]. intros _ _ _. apply rel_raise_if.
  Qed.

  (** ** Evaluation of a population *)
  Variables m1 m2 : Mode.
  Hypothesis HEV : forall X, rel' (eval_pop m1 X) (eval_pop m2 X) eq.

  Lemma rel_selection it c xb x xf mi xt ft ev1 ev2 :
    (forall X, rel' (ev1 X) (ev2 X) eq) ->
    rel' (selection_sync it c xb x xf mi xt ft ev1) (selection_sync it c xb x xf mi xt ft ev2) eq.
  Proof.
    intro H. eapply rel_bind; [apply H|]. intros [a b] ? <-.
    eapply rel_bind; [apply rel_np_argmin|]. intros i ? <-. apply rel_ret. reflexivity.
  Qed.
  Lemma rel_selection_async c xb xf x f xt ft i : imm = true ->
    rel' (selection_async c xb xf x f xt ft i) (selection_async c xb xf x f xt ft i) eq.
  Proof.
    intro HI. eapply rel_bind; [apply rel_call_fun, HI|]. intros y ? <-. apply rel_ret. reflexivity.
  Qed.

  (** ** DE *)
  Definition de_set (m : Mode) (P : DEParams) : DEParams :=
    mkDEParams (de_F P) (de_CR P) (de_strat P) (de_con P) (de_p P) (de_d P) (de_lower P)
               (de_upper P) (de_maxiter P) (de_xtol P) (de_ftol P) m (de_nout P) (de_alias P)
               (de_list P).

  Lemma rel_delete_shuffle p i : rel' (delete_shuffle p i) (delete_shuffle p i) eq.
  Proof. eapply rel_bind; [apply rel_perm|]. intros a ? <-. apply rel_ret. reflexivity. Qed.
  Lemma rel_np_randint n : rel' (np_randint n) (np_randint n) eq.
  Proof. destruct n; [apply rel_raise | apply rel_randint]. Qed.
  Lemma rel_de_cons c l u x : rel' (de_cons c l u x) (de_cons c l u x) eq.
  Proof.
    destruct c; [apply rel_ret; reflexivity|].
    eapply rel_bind; [apply rel_uniform_vec|]. intros r ? <-. apply rel_ret. reflexivity.
  Qed.

  Lemma rel_de_cands P r X g : rel' (de_cands P r X g) (de_cands (de_set m2 P) r X g) eq.
  Proof.
    unfold de_cands. cbn [de_p de_strat de_F de_d de_con de_lower de_upper de_CR de_set].
    eapply rel_bind; [apply rel_mapM; intros; apply rel_delete_shuffle|]. intros a ? <-.
    eapply rel_bind; [apply rel_mapM; intros; apply rel_orelse|]. intros b ? <-.
    eapply rel_bind; [apply rel_replicateM, rel_np_randint|]. intros c ? <-.
    apply rel_mapM. intros. apply rel_de_cons.
  Qed.
  Lemma rel_de_cand1 P r i X g : rel' (de_cand1 P r i X g) (de_cand1 (de_set m2 P) r i X g) eq.
  Proof.
    eapply rel_bind; [apply rel_delete_shuffle|]. intros a ? <-.
    eapply rel_bind; [apply rel_orelse|]. intros b ? <-.
    eapply rel_bind; [apply rel_np_randint|]. intros c ? <-. apply rel_de_cons.
  Qed.

  Lemma rel_de_step P (sync : bool) it s : (if sync then de_mode P = m1 else imm = true) ->
    rel' (de_step P sync it s) (de_step (de_set m2 P) sync it s) eq.
  Proof.
    intro HM. unfold de_step.
    eapply rel_bind; [apply rel_rand_mat|]. intros r1 ? <-.
    eapply rel_bind; [apply rel_raise_if|]. intros _ _ _.
    apply rel_bind with (Q := eq).
    - destruct sync.
      + unfold de_sync. eapply rel_bind; [apply rel_de_cands|]. intros U ? <-.
        eapply rel_bind; [apply rel_selection; rewrite HM; exact HEV|].
        intros sel ? <-.
        eapply rel_bind; [apply rel_when, rel_set_arg|]. intros _ _ _.
        apply rel_ret. reflexivity.
      + unfold de_async. eapply rel_bind.
        * apply rel_foldM. intros a i. unfold de_async_one.
          eapply rel_bind; [apply rel_de_cand1|]. intros u ? <-.
          eapply rel_bind; [apply rel_selection_async, HM|]. intros sel ? <-.
          eapply rel_bind; [apply rel_when, rel_set_arg|]. intros _ _ _.
          apply rel_ret. reflexivity.
        * intros [s' st] ? <-. apply rel_ret. reflexivity.
    - intros [s' st] ? <-.
      eapply rel_bind; [apply rel_rec_write|]. intros r ? <-. apply rel_ret. reflexivity.
  Qed.

  Lemma rel_eval_kind sync w b w' b' :
    eval_kind sync w b = inl m1 -> eval_kind sync w' b' = inl m2 ->
    rel' (eval_kindM sync w b) (eval_kindM sync w' b') (fun x y => x = m1 /\ y = m2).
  Proof. intros H1 H2. unfold eval_kindM. rewrite H1, H2. apply rel_ret. auto. Qed.

  Lemma rel_de a w b sync F CR st :
    eval_kind sync (a_workers a) (a_backend a) = inl m1 -> eval_kind sync w b = inl m2 ->
    (sync = true \/ imm = true) ->
    rel' (de a sync F CR st) (de (set_workers w b a) sync F CR st) eq.
  Proof.
    intros H1 H2 HI. unfold de.
    eapply rel_bind; [apply (rel_eval_kind _ _ _ _ _ H1 H2)|]. intros x y [-> ->].
    cbn [a_bounds set_workers a_constraints a_popsize a_x0 a_x0_array a_return_all a_verbosity
         a_maxiter a_xtol a_ftol a_callback].
    eapply rel_bind; [apply rel_unpack|]. intros [l u] ? <-.
    eapply rel_bind; [apply rel_orelse|]. intros con ? <-. cbn zeta.
    apply rel_bind with (Q := eq); [destruct (a_x0 a); [apply rel_ret; reflexivity|apply rel_lhs]|].
    intros X ? <-.
    eapply rel_bind; [apply rel_raise_if|]. intros _ _ _.
    eapply rel_bind; [apply HEV|]. intros [X' pf] ? <-.
    eapply rel_bind; [apply rel_when, rel_set_arg|]. intros _ _ _.
    eapply rel_bind; [apply rel_np_argmin|]. intros gb ? <-.
    eapply rel_bind; [apply rel_rec_alloc|]. intros nout ? <-.
    eapply rel_bind; [apply rel_rec_write|]. intros r ? <-.
    eapply rel_bind; [apply rel_when, rel_call_cb|]. intros _ _ _.
    apply (rel_drive RS _ _ eq); auto using rel_call_cb.
    - intros it s ? <-. eapply rel_conseq; [apply rel_de_step; destruct HI as [-> | ->]; [|destruct sync]; reflexivity|].
      intros p ? <-. repeat split.
    - intros it s ? <-. apply rel_ret. reflexivity.
  Qed.

  Theorem rel_de_minimize A w b :
    let a := dea A in
    is_sync (dea_updating A) a = is_sync (dea_updating A) (set_workers w b a) ->
    eval_kind (is_sync (dea_updating A) a) (a_workers a) (a_backend a) = inl m1 ->
    eval_kind (is_sync (dea_updating A) a) w b = inl m2 ->
    (is_sync (dea_updating A) a = true \/ imm = true) ->
    rel' (de_minimize A)
         (de_minimize (mkDEArgs (set_workers w b a) (dea_mutation A) (dea_recombination A)
                                (dea_strategy A) (dea_updating A))) eq.
  Proof.
    intros a HS H1 H2 HI. subst a. unfold de_minimize.
    cbn [dea dea_mutation dea_recombination dea_strategy dea_updating].
    rewrite <- HS.
    eapply rel_bind; [apply rel_check_pop; reflexivity|]. intros _ _ _.
    eapply rel_bind; [apply rel_raise_if|]. intros _ _ _.
    eapply rel_bind; [apply rel_raise_if|]. intros _ _ _.
    eapply rel_bind; [apply rel_check_updating|]. intros _ _ _.
    eapply rel_bind; [apply rel_orelse|]. intros st ? <-.
    eapply rel_bind; [apply rel_seed_and_cb; reflexivity|]. intros _ _ _.
    apply rel_de; assumption.
  Qed.

  (** ** CPSO and PSO *)
  Definition ps_set (m : Mode) (P : PSOParams) : PSOParams :=
    mkPSOParams (ps_w P) (ps_c1 P) (ps_c2 P) (ps_con P) (ps_gamma P) (ps_delta P) (ps_p P)
                (ps_d P) (ps_lower P) (ps_upper P) (ps_maxiter P) (ps_xtol P) (ps_ftol P) m
                (ps_nout P) (ps_alias P) (ps_list P).

  Lemma rel_pso_step P (sync : bool) it s : (if sync then ps_mode P = m1 else imm = true) ->
    rel' (pso_step P sync it s) (pso_step (ps_set m2 P) sync it s) eq.
  Proof.
    intro HM. unfold pso_step.
    eapply rel_bind; [apply rel_rand_mat|]. intros r1 ? <-.
    eapply rel_bind; [apply rel_rand_mat|]. intros r2 ? <-.
    apply rel_bind with (Q := eq).
    - destruct sync.
      + unfold pso_sync. eapply rel_bind; [apply rel_raise_if|]. intros _ _ _. cbn zeta.
        eapply rel_bind; [apply rel_selection; rewrite HM; exact HEV|].
        intros sel ? <-. apply rel_ret. reflexivity.
      + unfold pso_async. eapply rel_bind.
        * apply rel_foldM. intros a i. unfold pso_async_one. cbn zeta.
          eapply rel_bind; [apply rel_when, rel_set_arg|]. intros _ _ _.
          eapply rel_bind; [apply rel_selection_async, HM|]. intros sel ? <-.
          apply rel_ret. reflexivity.
        * intros [s' st] ? <-. apply rel_ret. reflexivity.
    - intros [s' st] ? <-.
      eapply rel_bind; [apply rel_rec_write|]. intros r ? <-. apply rel_ret. reflexivity.
  Qed.

  Lemma rel_pso_post P it s : rel' (pso_post P it s) (pso_post (ps_set m2 P) it s) eq.
  Proof.
    unfold pso_post. cbn [ps_gamma ps_set]. destruct (ps_gamma P) as [g|];
      [|apply rel_ret; reflexivity].
    unfold restart. cbn [ps_delta ps_maxiter ps_p ps_d ps_lower ps_upper ps_set].
    destruct (swarm_radius _ _ _ <? _)%num; [|apply rel_ret; reflexivity].
    eapply rel_bind; [apply rel_raise_if|]. intros _ _ _.
    eapply rel_bind; [apply rel_orelse|]. intros nw ? <-.
    destruct (0 <? nw)%Z; [|apply rel_ret; reflexivity]. cbn zeta.
    eapply rel_bind; [apply rel_uniform_mat|]. intros rows ? <-.
    eapply rel_bind; [apply rel_when, rel_set_arg|]. intros _ _ _.
    apply rel_ret. reflexivity.
  Qed.

  Lemma rel_cpso a w b sync iw c1 c2 g :
    eval_kind sync (a_workers a) (a_backend a) = inl m1 -> eval_kind sync w b = inl m2 ->
    (sync = true \/ imm = true) ->
    rel' (cpso a sync iw c1 c2 g) (cpso (set_workers w b a) sync iw c1 c2 g) eq.
  Proof.
    intros H1 H2 HI. unfold cpso.
    eapply rel_bind; [apply (rel_eval_kind _ _ _ _ _ H1 H2)|]. intros x y [-> ->].
    cbn [a_bounds set_workers a_constraints a_popsize a_x0 a_x0_array a_return_all a_verbosity
         a_maxiter a_xtol a_ftol a_callback].
    eapply rel_bind; [apply rel_unpack|]. intros [l u] ? <-.
    eapply rel_bind; [apply rel_orelse|]. intros con ? <-. cbn zeta.
    apply rel_bind with (Q := eq); [destruct (a_x0 a); [apply rel_ret; reflexivity|apply rel_lhs]|].
    intros X ? <-.
    eapply rel_bind; [apply rel_raise_if|]. intros _ _ _.
    eapply rel_bind; [apply HEV|]. intros [X' pf] ? <-.
    eapply rel_bind; [apply rel_when, rel_set_arg|]. intros _ _ _.
    eapply rel_bind; [apply rel_np_argmin|]. intros gb ? <-.
    eapply rel_bind; [apply rel_rec_alloc|]. intros nout ? <-.
    eapply rel_bind; [apply rel_rec_write|]. intros r ? <-.
    eapply rel_bind; [apply rel_when, rel_call_cb|]. intros _ _ _.
    apply (rel_drive RS _ _ eq); auto using rel_call_cb.
    - intros it s ? <-. eapply rel_conseq; [apply rel_pso_step; destruct HI as [-> | ->]; [|destruct sync]; reflexivity|].
      intros p ? <-. repeat split.
    - intros it s ? <-. apply rel_pso_post.
  Qed.

  Theorem rel_cpso_minimize A w b :
    let a := pa A in
    is_sync (pa_updating A) a = is_sync (pa_updating A) (set_workers w b a) ->
    eval_kind (is_sync (pa_updating A) a) (a_workers a) (a_backend a) = inl m1 ->
    eval_kind (is_sync (pa_updating A) a) w b = inl m2 ->
    (is_sync (pa_updating A) a = true \/ imm = true) ->
    rel' (cpso_minimize A)
         (cpso_minimize (mkCPSOArgs (set_workers w b a) (pa_inertia A) (pa_cognitivity A)
                          (pa_sociability A) (pa_competitivity A) (pa_updating A))) eq.
  Proof.
    intros a HS H1 H2 HI. subst a. unfold cpso_minimize.
    cbn [pa pa_inertia pa_cognitivity pa_sociability pa_competitivity pa_updating].
    rewrite <- HS.
    eapply rel_bind; [apply rel_check_pop; reflexivity|]. intros _ _ _.
    do 4 (eapply rel_bind; [apply rel_raise_if|]; intros _ _ _).
    eapply rel_bind; [apply rel_check_updating|]. intros _ _ _.
    eapply rel_bind; [apply rel_seed_and_cb; reflexivity|]. intros _ _ _.
    apply rel_cpso; assumption.
  Qed.

  (** ** NA *)
  Definition na_set (m : Mode) (P : NAParams) : NAParams :=
    mkNAParams (na_p P) (na_d P) (na_nr P) (na_lower P) (na_upper P) (na_maxiter P) (na_xtol P)
               (na_ftol P) m (na_nout P).

  Lemma rel_na_eval P X : na_mode P = m1 -> rel' (na_eval P X) (na_eval (na_set m2 P) X) eq.
  Proof.
    intro HM. unfold na_eval. cbn [na_mode na_set na_lower na_upper]. rewrite HM.
    eapply rel_bind; [apply HEV|]. intros [a b] ? <-. apply rel_ret. reflexivity.
  Qed.
  Lemma rel_na_mutation P X f : rel' (na_mutation P X f) (na_mutation (na_set m2 P) X f) eq.
  Proof.
    unfold na_mutation. cbn [na_p na_nr na_lower na_upper na_set].
    change (@e_argsort N E') with (@e_argsort N E).
    apply rel_mapM. intros i _. unfold na_one. cbn [na_nr na_d na_set]. cbn zeta.
    eapply rel_bind; [|intros acc ? <-; apply rel_ret; reflexivity].
    apply rel_foldM. intros [[x d1] d2] j. unfold na_axis.
    destruct (negb _); [apply rel_ret; reflexivity|]. cbn zeta.
    eapply rel_bind; [apply rel_uniform1|]. intros v ? <-.
    destruct (S j <? na_d P)%nat; apply rel_ret; reflexivity.
  Qed.

  Lemma rel_na_step P it s : na_mode P = m1 ->
    rel' (na_step P it s) (na_step (na_set m2 P) it s) eq.
  Proof.
    intro HM. unfold na_step.
    eapply rel_bind; [apply rel_na_mutation|]. intros X ? <-.
    eapply rel_bind; [apply rel_selection; intro; apply rel_na_eval, HM|]. intros sel ? <-.
    cbn zeta.
    eapply rel_bind; [apply rel_rec_write|]. intros r ? <-. apply rel_ret. reflexivity.
  Qed.

  Lemma rel_na a w b nr :
    eval_kind true (a_workers a) (a_backend a) = inl m1 -> eval_kind true w b = inl m2 ->
    rel' (na a nr) (na (set_workers w b a) nr) eq.
  Proof.
    intros H1 H2. unfold na.
    eapply rel_bind; [apply (rel_eval_kind _ _ _ _ _ H1 H2)|]. intros x y [-> ->].
    cbn [a_bounds set_workers a_constraints a_popsize a_x0 a_x0_array a_return_all a_verbosity
         a_maxiter a_xtol a_ftol a_callback].
    eapply rel_bind; [apply rel_unpack|]. intros [l u] ? <-.
    eapply rel_bind; [apply rel_orelse|]. intros n ? <-. cbn zeta.
    apply rel_bind with (Q := eq); [destruct (a_x0 a); [apply rel_ret; reflexivity|apply rel_lhs]|].
    intros X ? <-.
    eapply rel_bind; [apply (rel_na_eval (mkNAParams _ _ _ _ _ _ _ _ m1 None)); reflexivity|].
    intros [X' pf] ? <-.
    eapply rel_bind; [apply rel_np_argmin|]. intros gb ? <-.
    eapply rel_bind; [apply rel_rec_alloc|]. intros nout ? <-.
    eapply rel_bind; [apply rel_rec_write|]. intros r ? <-.
    eapply rel_bind; [apply rel_when, rel_call_cb|]. intros _ _ _.
    apply (rel_drive RS _ _ eq); auto using rel_call_cb.
    - intros it s ? <-. eapply rel_conseq; [apply rel_na_step; reflexivity|].
      intros p ? <-. repeat split.
    - intros it s ? <-. apply rel_ret. reflexivity.
  Qed.

  Theorem rel_na_minimize A w b :
    let a := naa A in
    eval_kind true (a_workers a) (a_backend a) = inl m1 -> eval_kind true w b = inl m2 ->
    rel' (na_minimize A) (na_minimize (mkNAArgs (set_workers w b a) (naa_nrperc A))) eq.
  Proof.
    intros a H1 H2. subst a. unfold na_minimize. cbn [naa naa_nrperc].
    eapply rel_bind; [apply rel_check_pop; reflexivity|]. intros _ _ _.
    eapply rel_bind; [apply rel_raise_if|]. intros _ _ _.
    eapply rel_bind; [apply rel_seed_and_cb; reflexivity|]. intros _ _ _.
    apply rel_na; assumption.
  Qed.

  (** ** CMA-ES and VD-CMA *)
  Definition cm_set (m : Mode) (P : CMAParams) : CMAParams :=
    mkCMAParams (cm_p P) (cm_d P) (cm_mu P) (cm_w P) (cm_mueff P) (cm_xm P) (cm_xstd P)
                (cm_pen P) (cm_maxiter P) (cm_xtol P) (cm_ftol P) (cm_insigma P) (cm_ilim P) m
                (cm_nout P).

  Lemma rel_cma_eval P X : cm_mode P = m1 -> rel' (cma_eval P X) (cma_eval (cm_set m2 P) X) eq.
  Proof.
    intro HM. unfold cma_eval. cbn [cm_mode cm_set]. rewrite HM.
    eapply rel_bind; [apply HEV|]. intros [a b] ? <-. apply rel_ret. reflexivity.
  Qed.

  (** [xold] is read only by the penalty, and only when the mean is outside the box. *)
  Definition unread (P : CMAParams) (xmean x1 x2 : vec) : Prop :=
    x1 = x2 \/ cm_pen P = false \/ existsb (fun b => b) (pen_ti xmean) = false.

  Lemma rel_cma_fitness P arx xm x1 x2 sg dC it pen : cm_mode P = m1 -> unread P xm x1 x2 ->
    rel' (cma_fitness P arx xm x1 sg dC it pen) (cma_fitness (cm_set m2 P) arx xm x2 sg dC it pen)
         eq.
  Proof.
    intros HM HU. unfold cma_fitness. cbn [cm_pen cm_p cm_d cm_mueff cm_set].
    destruct (cm_pen P) eqn:EP.
    - unfold penalize. cbn zeta.
      eapply rel_bind; [apply rel_cma_eval, HM|]. intros fit ? <-.
      change (@e_percentile N E') with (@e_percentile N E).
      change (@e_median N E') with (@e_median N E).
      apply rel_bind with (Q := eq).
      + match goal with |- @rel _ _ _ _ _ _ (if ?b then _ else _) _ _ => destruct b end.
        * destruct (filter _ _); [apply rel_raise | apply rel_ret; reflexivity].
        * destruct (negb _); apply rel_ret; reflexivity.
      + intros [[dl h] v] ? <-. destruct HU as [<- | [? | HU]]; [| congruence | rewrite HU].
        * match goal with |- context [if ?c then (repeat _ _, _) else _] => destruct c end;
            apply rel_ret; reflexivity.
        * rewrite andb_false_r. apply rel_ret. reflexivity.
    - eapply rel_bind; [apply rel_cma_eval, HM|]. intros fit ? <-. apply rel_ret. reflexivity.
  Qed.

  Lemma rel_cma_record P it v f r :
    rel' (cma_record P it v f r) (cma_record (cm_set m2 P) it v f r) eq.
  Proof. apply rel_rec_write. Qed.
  Lemma rel_hist_set P it v h : rel' (hist_set P it v h) (hist_set (cm_set m2 P) it v h) eq.
  Proof.
    unfold hist_set. cbn [cm_maxiter cm_set]. destruct (_ <? _)%Z; [apply rel_raise|].
    apply rel_ret. reflexivity.
  Qed.

  Definition cs_set (x : vec) (s : CMAS) : CMAS :=
    mkCMAS (cs_xmean s) x (cs_pc s) (cs_ps s) (cs_B s) (cs_D s) (cs_C s) (cs_inv s) (cs_sigma s)
           (cs_pen s) (cs_nfev s) (cs_eigeneval s) (cs_hist s) (cs_valid s) (cs_fit s)
           (cs_index s) (cs_rec s).

  Lemma rel_cma_step P it s x : cm_mode P = m1 -> unread P (cs_xmean s) (cs_xold s) x ->
    rel' (cma_step P it s) (cma_step (cm_set m2 P) it (cs_set x s)) eq.
  Proof.
    intros HM HU. unfold cma_step.
    cbn [cs_set cs_xmean cs_xold cs_pc cs_ps cs_B cs_D cs_C cs_inv cs_sigma cs_pen cs_nfev
         cs_eigeneval cs_hist cs_valid cs_fit cs_index cs_rec].
    apply rel_bind with (Q := eq).
    { apply rel_replicateM. eapply rel_bind; [apply rel_randn_vec|]. intros z ? <-.
      apply rel_ret. reflexivity. }
    intros arx ? <-.
    eapply rel_bind; [apply rel_cma_fitness; [exact HM | exact HU]|].
    intros [[fit valid] pen] ? <-. cbn zeta.
    eapply rel_bind; [apply rel_cma_record|]. intros r ? <-.
    change (@e_argsort N E') with (@e_argsort N E). change (@e_eigh N E') with (@e_eigh N E).
    cbn [cm_set cm_d cm_mueff cm_p cm_mu cm_w cm_maxiter cm_insigma cm_ilim cm_xtol cm_ftol].
    eapply rel_bind; [apply rel_hist_set|]. intros h ? <-.
    apply rel_bind with (Q := eq).
    - match goal with |- @rel _ _ _ _ _ _ (if ?b then _ else _) (if ?c then _ else _) _ =>
        change c with b; destruct b end; [|apply rel_ret; reflexivity].
      eapply rel_bind; [apply rel_orelse|]. intros [D B] ? <-. apply rel_ret. reflexivity.
    - intros [[[[B D] C] inv] ee] ? <-. apply rel_ret. reflexivity.
  Qed.

  Lemma rel_cma_check A w b :
    rel' (cma_check A) (cma_check (mkCMAArgs (set_workers w b (caa A)) (caa_sigma A) (caa_muperc A)))
         eq.
  Proof.
    unfold cma_check. cbn [caa caa_sigma caa_muperc set_workers a_callable a_bounds a_x0].
    do 5 (eapply rel_bind; [apply rel_raise_if|]; intros _ _ _).
    apply rel_seed_and_cb; reflexivity.
  Qed.
  Lemma rel_cma_alloc a w b : rel' (cma_alloc a) (cma_alloc (set_workers w b a)) eq.
  Proof.
    unfold cma_alloc. cbn [set_workers a_bounds a_return_all a_verbosity a_popsize a_maxiter].
    eapply rel_bind; [apply rel_rec_alloc|]. intros nout ? <-.
    do 3 (eapply rel_bind; [apply rel_raise_if|]; intros _ _ _).
    eapply rel_bind; [apply rel_orelse|]. intros i ? <-. apply rel_ret. reflexivity.
  Qed.
  (** [v] lies in the standardised box [-1, 1]^d *)
  Definition in_std (v : vec) : Prop :=
    Forall (fun x => nltb x (nZ (-1)) = false /\ nltb n1 x = false) v.
  (** The first mean is in the standardised box: x0 after standardisation if x0 is given,
      otherwise the values that [uniform(-1, 1)] can give. *)
  Definition first_in (a : Args) : Prop :=
    match a_x0 a with
    | Some x => forall rows, a_bounds a = D2 2 rows ->
        let lower := map (fun r => nth 0 r n0) rows in
        let upper := map (fun r => nth 1 r n0) rows in
        in_std (standardize (cma_xm lower upper) (cma_xstd lower upper) (nd_vec x))
    | None => forall r : @RNG N E,
        in_std [nadd (nZ (-1)) (nmul (nsub (nZ 1) (nZ (-1))) (fst (e_rand r)))]
    end.

  Lemma in_std_ti v : in_std v -> existsb (fun b => b) (pen_ti v) = false.
  Proof.
    intro H. unfold pen_ti. induction H as [|x v [H1 H2] _ IH]; [reflexivity|].
    cbn. rewrite IH. unfold num_arith in *. rewrite H1, H2. reflexivity.
  Qed.

  Lemma rel_replicateM_P {A} n (c1 : @M N E A) (c2 : @M N E' A) (P : A -> Prop) :
    rel' c1 c2 (fun x y => x = y /\ P x) ->
    rel' (replicateM n c1) (replicateM n c2) (fun x y => x = y /\ Forall P x).
  Proof.
    intro H. induction n as [|n IH]; cbn; [apply rel_ret; auto|].
    eapply rel_bind; [exact H|]. intros a b [<- Ha].
    eapply rel_bind; [exact IH|]. intros l l' [<- Hl]. apply rel_ret. auto.
  Qed.

  Lemma rel_unpack_eq b :
    rel' (unpack_bounds b) (unpack_bounds b)
         (fun p q => p = q /\ exists rows, b = D2 2 rows /\
            p = (map (fun r => nth 0 r n0) rows, map (fun r => nth 1 r n0) rows)).
  Proof.
    destruct b as [x|v|c rows]; try apply rel_raise.
    destruct c as [|[|[|c]]]; try apply rel_raise. apply rel_ret. eauto.
  Qed.

  Lemma rel_cma_setup A w b :
    let a := caa A in
    eval_kind true (a_workers a) (a_backend a) = inl m1 -> eval_kind true w b = inl m2 ->
    rel' (cma_setup A) (cma_setup (mkCMAArgs (set_workers w b a) (caa_sigma A) (caa_muperc A)))
         (fun p q => fst p = fst q /\ snd q = cm_set m2 (snd p) /\ cm_mode (snd p) = m1 /\
                     (a_constraints a = None -> cm_pen (snd p) = false) /\
                     (first_in a -> in_std (fst p))).
  Proof.
    intros a H1 H2. subst a. unfold cma_setup. cbn [caa caa_sigma caa_muperc].
    eapply rel_bind; [apply (rel_eval_kind _ _ _ _ _ H1 H2)|]. intros x y [-> ->].
    cbn [set_workers a_bounds a_constraints a_x0 a_popsize a_maxiter a_xtol a_ftol].
    eapply rel_bind; [apply rel_unpack_eq|]. intros [l u] ? [<- [rows [EB EQ]]].
    injection EQ as -> ->. cbn zeta.
    apply rel_bind with (Q := fun x y => x = y /\ (a_constraints (caa A) = None -> x = false)).
    { unfold cma_cons_check. destruct (a_constraints (caa A)) as [c|];
        [|apply rel_ret; auto].
      destruct (String.eqb c "Penalize"); [apply rel_ret; split; [auto|discriminate]|].
      apply rel_raise. }
    intros pen ? [<- Hpen].
    apply rel_bind with (Q := fun x y => x = y /\ (first_in (caa A) -> in_std x)).
    { unfold first_in. destruct (a_x0 (caa A)) as [x|].
      - apply rel_ret. split; [reflexivity|]. intro H. apply (H rows EB).
      - eapply rel_conseq.
        + apply rel_replicateM_P with (P := fun v =>
            (forall r : @RNG N E,
               in_std [nadd (nZ (-1)) (nmul (nsub (nZ 1) (nZ (-1))) (fst (e_rand r)))]) ->
            in_std [v]).
          intros s1 s2 [R1 [R2 R3]]. unfold uniform, bind, rand, draw.
          change (@RNG N E') with (@RNG N E). change (@US N E') with (@US N E).
          change (@e_rand N E') with (@e_rand N E).
          rewrite <- R1. destruct (e_rand (fst (rs s1))) as [u r] eqn:EU. unfold RS. cbn.
          split; [auto|]. split; [reflexivity|]. intro H. specialize (H (fst (rs s1))).
          rewrite EU in H. exact H.
        + cbv beta. intros v ? [<- Hv]. split; [reflexivity|]. intro H.
          unfold in_std. rewrite Forall_forall in *. intros x Hx. specialize (Hv x Hx H).
          unfold in_std in Hv. rewrite Forall_forall in Hv. apply Hv. left. reflexivity. }
    intros xm ? [<- Hxm].
    eapply rel_bind; [apply rel_orelse|]. intros mu ? <-. apply rel_ret.
    cbn [fst snd cm_pen cm_mode]. auto.
  Qed.

  (** The memory [np.empty] returned for the previous mean is not read. *)
  Definition memory_ok (a : Args) : Prop :=
    (forall n, emp n = e_empty n) \/ a_constraints a = None \/ first_in a.

  Lemma cs_set_id s : cs_set (cs_xold s) s = s.
  Proof. destruct s. reflexivity. Qed.

  Theorem rel_cmaes_minimize A w b :
    let a := caa A in
    eval_kind true (a_workers a) (a_backend a) = inl m1 -> eval_kind true w b = inl m2 ->
    memory_ok a ->
    rel' (cmaes_minimize A)
         (cmaes_minimize (mkCMAArgs (set_workers w b a) (caa_sigma A) (caa_muperc A))) eq.
  Proof.
    intros a H1 H2 HM. subst a. unfold cmaes_minimize.
    eapply rel_bind; [apply rel_cma_check|]. intros _ _ _. unfold cmaes.
    cbn [caa caa_sigma].
    eapply rel_bind; [apply (rel_cma_setup A w b H1 H2)|].
    intros [xm P] [xm' P'] [E0 [E1 [E2 [E3 E4]]]]. cbn [fst snd] in *. subst xm' P'.
    eapply rel_bind; [apply rel_cma_alloc|]. intros [nout ilim] ? <-.
    cbn [cm_set cm_p cm_d cm_mu cm_w cm_mueff cm_xm cm_xstd cm_pen cm_maxiter cm_xtol cm_ftol
         cm_insigma cm_ilim cm_mode cm_nout set_workers a_maxiter has_cb a_callback].
    set (P1 := mkCMAParams (cm_p P) (cm_d P) (cm_mu P) (cm_w P) (cm_mueff P) (cm_xm P) (cm_xstd P)
                           (cm_pen P) (cm_maxiter P) (cm_xtol P) (cm_ftol P) (cm_insigma P)
                           ilim (cm_mode P) nout).
    apply (rel_drive RS (cma_drv P1) (cma_drv (cm_set m2 P1))
             (fun s t => exists x, t = cs_set x s /\ unread P1 (cs_xmean s) (cs_xold s) x)).
    - apply rel_call_cb.
    - intros it s ? [x [-> Hx]]. eapply rel_conseq; [apply rel_cma_step; [exact E2|exact Hx]|].
      intros [t c] ? <-. split; [|repeat split]. cbn [fst].
      exists (cs_xold t). split; [symmetry; apply cs_set_id | left; reflexivity].
    - intros it s ? [x [-> Hx]]. apply rel_ret. eauto.
    - exists (@e_empty N E' (cm_d P)). split; [reflexivity|].
      cbn [cs_xmean cs_xold]. unfold unread. cbn [P1 cm_pen].
      destruct HM as [HM | [HM | HM]].
      + left. symmetry. apply HM.
      + right. left. apply E3, HM.
      + right. right. apply in_std_ti. auto.
  Qed.

  (** *** VD-CMA *)
  Definition vs_set (x : vec) (s : VDS) : VDS :=
    mkVDS (vs_xmean s) x (vs_dx s) (vs_ps s) (vs_dvec s) (vs_vvec s) (vs_nv2 s) (vs_nv s)
          (vs_vn s) (vs_vnn s) (vs_pc s) (vs_inj s) (vs_sigma s) (vs_pen s) (vs_nfev s)
          (vs_hist s) (vs_valid s) (vs_fit s) (vs_index s) (vs_rec s).
  Lemma vs_set_id s : vs_set (vs_xold s) s = s.
  Proof. destruct s. reflexivity. Qed.

  Lemma rel_vd_step P it s x : cm_mode P = m1 -> unread P (vs_xmean s) (vs_xold s) x ->
    rel' (vd_step P it s) (vd_step (cm_set m2 P) it (vs_set x s)) eq.
  Proof.
    intros HM HU. unfold vd_step.
    apply rel_bind with (Q := eq).
    { unfold vd_sample.
      eapply rel_bind; [apply rel_replicateM, rel_randn_vec|]. intros arz ? <-. cbn zeta.
      change (vs_inj (vs_set x s)) with (vs_inj s).
      destruct (vs_inj s); [|apply rel_ret; reflexivity].
      eapply rel_bind; [apply rel_randn_vec|]. intros z ? <-.
      eapply rel_bind; [apply rel_raise_if|]. intros _ _ _. apply rel_ret. reflexivity. }
    intros ary ? <-. cbn zeta.
    cbn [vs_set vs_xmean vs_xold vs_dx vs_ps vs_dvec vs_vvec vs_nv2 vs_nv vs_vn vs_vnn vs_pc
         vs_inj vs_sigma vs_pen vs_nfev vs_hist vs_valid vs_fit vs_index vs_rec].
    eapply rel_bind; [apply rel_cma_fitness; [exact HM | exact HU]|].
    intros [[fit valid] pen] ? <-. cbn zeta.
    eapply rel_bind; [apply rel_cma_record|]. intros r ? <-.
    change (@e_argsort N E') with (@e_argsort N E).
    cbn [cm_set cm_d cm_mueff cm_p cm_mu cm_w cm_maxiter cm_insigma cm_ilim cm_xtol cm_ftol].
    eapply rel_bind; [apply rel_hist_set|]. intros h ? <-.
    change (vd_sigma (cm_set m2 P) (vs_set x s)) with (vd_sigma P s).
    destruct (vd_sigma P s (e_argsort fit)) as [[ps sg] cond].
    destruct (vd_update _ _ _ _ _ _ _ _ _ _ _ _ _ _ _) as [vv dv].
    apply rel_ret. reflexivity.
  Qed.

  Theorem rel_vdcma_minimize A w b :
    let a := caa A in
    eval_kind true (a_workers a) (a_backend a) = inl m1 -> eval_kind true w b = inl m2 ->
    memory_ok a ->
    rel' (vdcma_minimize A)
         (vdcma_minimize (mkCMAArgs (set_workers w b a) (caa_sigma A) (caa_muperc A))) eq.
  Proof.
    intros a H1 H2 HM. subst a. unfold vdcma_minimize.
    eapply rel_bind; [apply rel_cma_check|]. intros _ _ _. unfold vdcma.
    cbn [caa caa_sigma].
    eapply rel_bind; [apply (rel_cma_setup A w b H1 H2)|].
    intros [xm P] [xm' P'] [E0 [E1 [E2 [E3 E4]]]]. cbn [fst snd] in *. subst xm' P'.
    eapply rel_bind; [apply rel_randn_vec|]. intros z ? <-. cbn zeta.
    eapply rel_bind; [apply rel_cma_alloc|]. intros [nout ilim] ? <-.
    cbn [cm_set cm_p cm_d cm_mu cm_w cm_mueff cm_xm cm_xstd cm_pen cm_maxiter cm_xtol cm_ftol
         cm_insigma cm_ilim cm_mode cm_nout set_workers a_maxiter has_cb a_callback].
    set (P1 := mkCMAParams (cm_p P) (cm_d P) (cm_mu P) (cm_w P) (cm_mueff P) (cm_xm P) (cm_xstd P)
                           (cm_pen P) (cm_maxiter P) (cm_xtol P) (cm_ftol P) (cm_insigma P)
                           ilim (cm_mode P) nout).
    apply (rel_drive RS (vd_drv P1) (vd_drv (cm_set m2 P1))
             (fun s t => exists x, t = vs_set x s /\ unread P1 (vs_xmean s) (vs_xold s) x)).
    - apply rel_call_cb.
    - intros it s ? [x [-> Hx]]. eapply rel_conseq; [apply rel_vd_step; [exact E2|exact Hx]|].
      intros [t c] ? <-. split; [|repeat split]. cbn [fst].
      exists (vs_xold t). split; [symmetry; apply vs_set_id | left; reflexivity].
    - intros it s ? [x [-> Hx]]. apply rel_ret. eauto.
    - exists (@e_empty N E' (cm_d P)). split; [reflexivity|].
      cbn [vs_xmean vs_xold]. unfold unread. cbn [P1 cm_pen].
      destruct HM as [HM | [HM | HM]].
      + left. symmetry. apply HM.
      + right. left. apply E3, HM.
      + right. right. apply in_std_ti. auto.
  Qed.
End Vary.
