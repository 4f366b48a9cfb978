(** C79: a run depends on the objective only through its answers at the points it evaluates, and
    two objectives lead to the same run up to the first point where they differ. *)
From Verif Require Import Base Num Env Common DE CPSO NA Mat CMAES VDCMA Sample Hoare Ranks Refuse.

(** ** Specification *)
Section Spec.
  Context {N : Num}.
  (** where the two objectives may differ *)
  Variable D : vec -> bool.

  (** [e] is no evaluation at a point of [D] *)
  Definition Outside (e : event) : Prop :=
    match e with EEval x _ => D x = false | _ => True end.
  (** The two traces are the same up to the first evaluation at a point of [D], which is the same
      point in both. *)
  Definition Parted (t t' : list event) : Prop :=
    exists t0 x a a' u u', t = t0 ++ EEval x a :: u /\ t' = t0 ++ EEval x a' :: u' /\
                           D x = true /\ Forall Outside t0.
End Spec.

(** ** The trace only grows *)
Section Grows.
  Context {N : Num} {E : Env N}.
  Definition grows {A} (m : M A) : Prop :=
    forall s, exists u, tr (snd (m s)) = tr s ++ u.
  Lemma grows_pure {A} (m : M A) : (forall s, tr (snd (m s)) = tr s) -> grows m.
  Proof. intros H s. exists []. rewrite app_nil_r. apply H. Qed.
  Lemma grows_bind {A B} (m : M A) (k : A -> M B) :
    grows m -> (forall a, grows (k a)) -> grows (bind m k).
  Proof.
    intros Hm Hk s. unfold bind. destruct (Hm s) as [u Hu]. destruct (m s) as [[a|e] s']; cbn in *.
    - destruct (Hk a s') as [v Hv]. exists (u ++ v). rewrite Hv, Hu, app_assoc. reflexivity.
    - exists u. exact Hu.
  Qed.
  Lemma grows_draw {A} (f : RNG -> A * RNG) : grows (draw f).
  Proof. apply grows_pure. intro s. unfold draw. destruct (f (fst (rs s))). reflexivity. Qed.
  Lemma grows_call_fun x : grows (call_fun x).
  Proof. intro s. unfold call_fun. destruct (e_fun x (rs s)). eexists. reflexivity. Qed.
  Lemma grows_call_cb X st : grows (call_cb X st).
  Proof. intro s. unfold call_cb. destruct (e_cb X st (rs s)). eexists. reflexivity. Qed.
  Lemma grows_call_scb X st : grows (call_scb X st).
  Proof. intro s. unfold call_scb. destruct (e_scb X st (rs s)). eexists. reflexivity. Qed.
End Grows.

Section Agree.
  Context {N : Num} {E : Env N}.
  Variable D : vec -> bool.
  Variable fn : vec -> @RNG N E * @US N E -> (T + nat) * (@RNG N E * @US N E).
  Hypothesis HF : forall x w, D x = false -> e_fun x w = fn x w.
  Let E' : Env N := other_fun E fn.

  Definition Alike (s1 : @St N E) (s2 : @St N E') : Prop :=
    rs s1 = rs s2 /\ tr s1 = tr s2 /\ argbuf s1 = argbuf s2 /\ Forall (Outside D) (tr s1).
  Definition agree {A} (m1 : @M N E A) (m2 : @M N E' A) : Prop :=
    grows m1 /\ grows m2 /\
    forall s1 s2, Alike s1 s2 ->
      (fst (m1 s1) = fst (m2 s2) /\ Alike (snd (m1 s1)) (snd (m2 s2))) \/
      Parted D (tr (snd (m1 s1))) (tr (snd (m2 s2))).

  Lemma parted_grow t t' u u' : Parted D t t' -> Parted D (t ++ u) (t' ++ u').
  Proof.
    intros (t0 & x & a & a' & v & v' & -> & -> & H). exists t0, x, a, a', (v ++ u), (v' ++ u').
    rewrite <- !app_assoc. cbn. auto.
  Qed.
  Lemma agree_ret {A} (a : A) : agree (ret a) (ret a).
  Proof. split; [apply grows_pure; reflexivity|]. split; [apply grows_pure; reflexivity|]. intros s1 s2 H. left. auto. Qed.
  Lemma agree_raise {A} e : agree (@raise _ _ A e) (@raise _ _ A e).
  Proof. split; [apply grows_pure; reflexivity|]. split; [apply grows_pure; reflexivity|]. intros s1 s2 H. left. auto. Qed.
  Lemma agree_bind {A B} (m1 : @M N E A) (m2 : @M N E' A) (k1 : A -> @M N E B) (k2 : A -> @M N E' B) :
    agree m1 m2 -> (forall a, agree (k1 a) (k2 a)) -> agree (bind m1 k1) (bind m2 k2).
  Proof.
    intros (G1 & G2 & H) Hk. split; [apply grows_bind; [exact G1|apply Hk]|].
    split; [apply grows_bind; [exact G2|apply Hk]|].
    intros s1 s2 HA. unfold bind.
    destruct (H s1 s2 HA) as [[He HA']|HP].
    - destruct (m1 s1) as [[a|e] t1], (m2 s2) as [[a'|e'] t2]; cbn in He, HA'; try discriminate.
      + injection He as <-. apply (proj2 (proj2 (Hk a))). exact HA'.
      + left. cbn. split; [congruence|exact HA'].
    - right. destruct (m1 s1) as [[a|e] t1], (m2 s2) as [[a'|e'] t2]; cbn in HP |- *.
      + destruct (proj1 (Hk a) t1) as [u ->], (proj1 (proj2 (Hk a')) t2) as [u' ->]. apply parted_grow, HP.
      + destruct (proj1 (Hk a) t1) as [u ->]. rewrite <- (app_nil_r (tr t2)). apply parted_grow, HP.
      + destruct (proj1 (proj2 (Hk a')) t2) as [u' ->]. rewrite <- (app_nil_r (tr t1)). apply parted_grow, HP.
      + exact HP.
  Qed.

  Lemma agree_draw {A} (f : @RNG N E -> A * @RNG N E) : agree (@draw N E A f) (@draw N E' A f).
  Proof.
    split; [apply grows_draw|]. split; [apply (@grows_draw N E')|].
    intros s1 s2 (H1 & H2 & H3 & H4). left. unfold draw.
    change (@RNG N E') with (@RNG N E) in *. change (@US N E') with (@US N E) in *.
    rewrite <- H1. destruct (f (fst (rs s1))) as [a r]. cbn. split; [reflexivity|]. unfold Alike. cbn. auto.
  Qed.
  Lemma agree_rand : agree rand rand. Proof. exact (agree_draw e_rand). Qed.
  Lemma agree_randn : agree randn randn. Proof. exact (agree_draw e_randn). Qed.
  Lemma agree_perm n : agree (perm n) (perm n). Proof. exact (agree_draw (e_perm n)). Qed.
  Lemma agree_randint n : agree (randint n) (randint n). Proof. exact (agree_draw (e_randint n)). Qed.

  Lemma outside_snoc t e : Forall (Outside D) t -> Outside D e -> Forall (Outside D) (t ++ [e]).
  Proof. intros H He. apply Forall_app. split; [exact H|]. constructor; [exact He|constructor]. Qed.
  Lemma agree_call_fun x : agree (call_fun x) (call_fun x).
  Proof.
    split; [apply grows_call_fun|]. split; [apply grows_call_fun|].
    intros s1 s2 (H1 & H2 & H3 & H4). unfold call_fun. change (@e_fun N E') with fn.
    change (@RNG N E') with (@RNG N E) in *. change (@US N E') with (@US N E) in *. rewrite <- H1.
    destruct (D x) eqn:Hx.
    - right. destruct (e_fun x (rs s1)) as [r w], (fn x (rs s1)) as [r' w']. cbn.
      exists (tr s1), x, r, r', [], []. rewrite <- H2. auto.
    - left. rewrite <- (HF x (rs s1) Hx). destruct (e_fun x (rs s1)) as [r w]. cbn.
      split; [reflexivity|]. unfold Alike. cbn. rewrite <- H2. repeat split; auto. apply outside_snoc; assumption.
  Qed.
  Lemma agree_call_cb X st : agree (call_cb X st) (call_cb X st).
  Proof.
    split; [apply grows_call_cb|]. split; [apply grows_call_cb|].
    intros s1 s2 (H1 & H2 & H3 & H4). unfold call_cb. change (@e_cb N E') with (@e_cb N E).
    change (@RNG N E') with (@RNG N E) in *. change (@US N E') with (@US N E) in *. rewrite <- H1. left.
    destruct (e_cb X st (rs s1)) as [r w]. cbn. split; [reflexivity|]. unfold Alike. cbn. rewrite <- H2.
    repeat split; auto. apply outside_snoc; [assumption|exact I].
  Qed.
  Lemma agree_call_scb X st : agree (call_scb X st) (call_scb X st).
  Proof.
    split; [apply grows_call_scb|]. split; [apply grows_call_scb|].
    intros s1 s2 (H1 & H2 & H3 & H4). unfold call_scb. change (@e_scb N E') with (@e_scb N E).
    change (@RNG N E') with (@RNG N E) in *. change (@US N E') with (@US N E) in *. rewrite <- H1. left.
    destruct (e_scb X st (rs s1)) as [r w]. cbn. split; [reflexivity|]. unfold Alike. cbn. rewrite <- H2.
    repeat split; auto. apply outside_snoc; [assumption|exact I].
  Qed.
  Lemma agree_mpi_bcast X : agree (mpi_bcast X) (mpi_bcast X).
  Proof.
    split; [intro s; eexists; reflexivity|]. split; [intro s; eexists; reflexivity|].
    intros s1 s2 (H1 & H2 & H3 & H4). left. unfold mpi_bcast, Alike. change (@e_bcast N E') with (@e_bcast N E).
    cbn. rewrite <- H2. repeat split; auto. apply outside_snoc; [assumption|exact I].
  Qed.
  Lemma agree_mpi_allreduce X f : agree (mpi_allreduce X f) (mpi_allreduce X f).
  Proof.
    split; [intro s; eexists; reflexivity|]. split; [intro s; eexists; reflexivity|].
    intros s1 s2 (H1 & H2 & H3 & H4). left. unfold mpi_allreduce, Alike.
    change (@e_allreduce N E') with (@e_allreduce N E).
    cbn. rewrite <- H2. repeat split; auto. apply outside_snoc; [assumption|exact I].
  Qed.
  Lemma agree_set_arg m : agree (set_arg m) (set_arg m).
  Proof.
    split; [apply grows_pure; reflexivity|]. split; [apply grows_pure; reflexivity|].
    intros s1 s2 (H1 & H2 & H3 & H4). left. split; [reflexivity|]. unfold Alike. cbn. auto.
  Qed.
  Lemma agree_seed o : agree (seed o) (seed o).
  Proof.
    destruct o as [z|]; [|apply agree_ret].
    split; [apply grows_pure; reflexivity|]. split; [apply grows_pure; reflexivity|].
    intros s1 s2 (H1 & H2 & H3 & H4). left. split; [reflexivity|]. unfold Alike. cbn.
    change (@RNG N E') with (@RNG N E) in *. change (@US N E') with (@US N E) in *. rewrite <- H1. auto.
  Qed.
  Lemma agree_get_sched n : agree (get_sched n) (get_sched n).
  Proof.
    split; [apply grows_pure; reflexivity|]. split; [apply grows_pure; reflexivity|].
    intros s1 s2 H. pose proof H as (H1 & H2 & H3 & H4). left. unfold get_sched. cbn.
    change (@RNG N E') with (@RNG N E) in *. change (@US N E') with (@US N E) in *. rewrite <- H1. auto.
  Qed.
  Lemma agree_replicateM {A} n (m1 : @M N E A) (m2 : @M N E' A) : agree m1 m2 -> agree (replicateM n m1) (replicateM n m2).
  Proof.
    intros H; induction n as [|n IH]; cbn; [apply agree_ret|].
    apply agree_bind; auto. intros a. apply agree_bind; auto. intros l. apply agree_ret.
  Qed.
  Lemma agree_mapM {A B} (f1 : A -> @M N E B) (f2 : A -> @M N E' B) l :
    (forall a, agree (f1 a) (f2 a)) -> agree (mapM f1 l) (mapM f2 l).
  Proof.
    intros H; induction l as [|a l IH]; cbn; [apply agree_ret|].
    apply agree_bind; auto. intros b. apply agree_bind; auto. intros bs. apply agree_ret.
  Qed.
  Lemma agree_foldM {A B} (f1 : A -> B -> @M N E A) (f2 : A -> B -> @M N E' A) acc l :
    (forall a b, agree (f1 a b) (f2 a b)) -> agree (foldM f1 acc l) (foldM f2 acc l).
  Proof.
    intros H; revert acc; induction l as [|b l IH]; intros acc; cbn; [apply agree_ret|].
    apply agree_bind; auto.
  Qed.
  Lemma agree_when b (m1 : @M N E unit) (m2 : @M N E' unit) : agree m1 m2 -> agree (when b m1) (when b m2).
  Proof. intros H; unfold when; destruct b; auto. apply agree_ret. Qed.
  Lemma agree_raise_if b e : agree (raise_if b e) (raise_if b e).
  Proof. unfold raise_if; destruct b; [apply agree_raise|apply agree_ret]. Qed.
  Lemma agree_orelse {A} (o : option A) e : agree (orelse o e) (orelse o e).
  Proof. unfold orelse; destruct o; [apply agree_ret|apply agree_raise]. Qed.

  Create HintDb agree.
  Ltac pure :=
    change (@e_argsort N E') with (@e_argsort N E) in *; change (@e_percentile N E') with (@e_percentile N E) in *;
    change (@e_median N E') with (@e_median N E) in *; change (@e_eigh N E') with (@e_eigh N E) in *;
    change (@e_empty N E') with (@e_empty N E) in *; change (@worst N E') with (@worst N E) in *;
    change (@e_rank N E') with (@e_rank N E) in *; change (@e_mpisize N E') with (@e_mpisize N E) in *.
  Ltac d1 :=
    repeat first
      [ apply agree_ret | apply agree_raise | apply agree_rand | apply agree_randn | apply agree_perm | apply agree_randint
      | apply agree_call_fun | apply agree_call_cb | apply agree_call_scb | apply agree_mpi_bcast
      | apply agree_mpi_allreduce | apply agree_set_arg | apply agree_seed | apply agree_get_sched
      | solve [auto 1 with agree nocore]
      | apply agree_bind; [|intro]
      | apply agree_replicateM | (apply agree_mapM; intro) | (apply agree_foldM; intro; intro)
      | apply agree_when | apply agree_raise_if | apply agree_orelse
      | progress pure
      | match goal with
        | |- agree (let _ := _ in _) _ => cbn zeta
        | |- agree (match ?x with _ => _ end) _ => destruct x
        | |- agree ((match ?x with _ => _ end) _) _ => destruct x
        end ].

  Lemma agree_eval_kindM sync w b : agree (eval_kindM sync w b) (eval_kindM sync w b).
  Proof. unfold eval_kindM. d1. Qed.
  Lemma agree_np_argmin v : agree (np_argmin v) (np_argmin v).
  Proof. unfold np_argmin. d1. Qed.
  Lemma agree_eval_pop m X : agree (eval_pop m X) (eval_pop m X).
  Proof. unfold eval_pop, eval_serial, eval_joblib, eval_mpi. d1. Qed.
  Lemma agree_uniform lo hi : agree (uniform lo hi) (uniform lo hi).
  Proof. unfold uniform, rand. d1. Qed.
  Hint Resolve agree_uniform agree_eval_pop agree_np_argmin agree_eval_kindM : agree.
  Lemma agree_urange lo hi : agree (urange lo hi) (urange lo hi).
  Proof. unfold urange. d1. Qed.
  Hint Resolve agree_urange : agree.
  Lemma agree_uniform1 lo hi : agree (uniform1 lo hi) (uniform1 lo hi).
  Proof. unfold uniform1. d1. Qed.
  Lemma agree_uniform_row lo hi : agree (uniform_row lo hi) (uniform_row lo hi).
  Proof. unfold uniform_row. d1. Qed.
  Hint Resolve agree_uniform1 agree_uniform_row : agree.
  Lemma agree_uniform_vec lo hi : agree (uniform_vec lo hi) (uniform_vec lo hi).
  Proof. unfold uniform_vec. d1. Qed.
  Lemma agree_rand_mat p d : agree (rand_mat p d) (rand_mat p d).
  Proof. unfold rand_mat, rand. d1. Qed.
  Lemma agree_randn_vec d : agree (randn_vec d) (randn_vec d).
  Proof. unfold randn_vec, randn. d1. Qed.
  Hint Resolve agree_uniform_vec agree_rand_mat agree_randn_vec : agree.
  Lemma agree_lhs p d lo hi : agree (lhs p d lo hi) (lhs p d lo hi).
  Proof. unfold lhs, perm. d1. Qed.
  Lemma agree_selection_async c xb xbf x xf xt ft i : agree (selection_async c xb xbf x xf xt ft i) (selection_async c xb xbf x xf xt ft i).
  Proof. unfold selection_async. d1. Qed.
  Lemma agree_selection_sync it c xb x xf mx xt ft (ev1 : matrix -> @M N E (matrix * vec)) (ev2 : matrix -> @M N E' (matrix * vec)) :
    (forall X, agree (ev1 X) (ev2 X)) ->
    agree (selection_sync it c xb x xf mx xt ft ev1) (selection_sync it c xb x xf mx xt ft ev2).
  Proof. intros H. unfold selection_sync. apply agree_bind; [apply H|intro]. d1. Qed.
  Lemma agree_rec_write a b c d e f g : agree (rec_write a b c d e f g) (rec_write a b c d e f g).
  Proof. unfold rec_write, rec_put. d1. Qed.
  Lemma agree_rec_alloc a b c d : agree (rec_alloc a b c d) (rec_alloc a b c d).
  Proof. unfold rec_alloc, rec_nout. d1. Qed.
  Lemma agree_unpack_bounds b : agree (unpack_bounds b) (unpack_bounds b).
  Proof. unfold unpack_bounds. d1. Qed.
  Hint Resolve agree_lhs agree_selection_async agree_selection_sync agree_rec_write agree_rec_alloc
    agree_unpack_bounds : agree.

  Lemma agree_drive {S} (D1 : @Drv N E S) (D2 : @Drv N E' S) cb fl it s :
    (forall it s, agree (d_step D1 it s) (d_step D2 it s)) -> (forall it s, agree (d_post D1 it s) (d_post D2 it s)) ->
    (forall s, d_pop D1 s = d_pop D2 s) -> (forall s, d_x D1 s = d_x D2 s) -> (forall s, d_fun D1 s = d_fun D2 s) ->
    (forall it s, d_nfev D1 it s = d_nfev D2 it s) -> (forall s, d_rec D1 s = d_rec D2 s) ->
    agree (drive D1 cb fl it s) (drive D2 cb fl it s).
  Proof.
    intros H1 H2 H3 H4 H5 H6 H7. revert it s. induction fl as [|k IH]; intros it s; cbn [drive]; [d1|].
    cbn zeta. apply agree_bind; [apply H1|]. intros [s' st]. apply agree_bind.
    - unfold cb_state. rewrite H3, H4, H5, H6, H7. d1.
    - intros _. destruct st as [c|].
      + unfold result. rewrite H4, H5, H6, H7. d1.
      + apply agree_bind; auto.
  Qed.

  Lemma agree_check_pop a : agree (check_pop a) (check_pop a).
  Proof. unfold check_pop. d1. Qed.
  Lemma agree_seed_and_cb a : agree (seed_and_cb a) (seed_and_cb a).
  Proof. unfold seed_and_cb. d1. Qed.
  Lemma agree_check_updating u : agree (check_updating u) (check_updating u).
  Proof. unfold check_updating. d1. Qed.
  Hint Resolve agree_check_pop agree_seed_and_cb agree_check_updating : agree.

  (** *** de *)
  Lemma agree_delete_shuffle p i : agree (delete_shuffle p i) (delete_shuffle p i).
  Proof. unfold delete_shuffle, perm. d1. Qed.
  Lemma agree_np_randint n : agree (np_randint n) (np_randint n).
  Proof. unfold np_randint, randint. d1. Qed.
  Lemma agree_de_cons c lo hi u : agree (de_cons c lo hi u) (de_cons c lo hi u).
  Proof. unfold de_cons. d1. Qed.
  Hint Resolve agree_delete_shuffle agree_np_randint agree_de_cons : agree.
  Lemma agree_de_step P sync it s : agree (de_step P sync it s) (de_step P sync it s).
  Proof.
    unfold de_step, de_sync, de_async, de_async_one, de_cands, de_cand1, set_alias. d1.
  Qed.
  Theorem agree_de A : agree (de_minimize A) (de_minimize A).
  Proof.
    unfold de_minimize, de. d1. apply agree_drive; try (intros; reflexivity); intros; cbn [d_step d_post de_drv].
    - apply agree_de_step.
    - d1.
  Qed.

  (** *** cpso, pso *)
  Lemma agree_pso_step P sync it s : agree (pso_step P sync it s) (pso_step P sync it s).
  Proof.
    unfold pso_step, pso_sync, pso_async, pso_async_one, pso_set_alias. d1.
  Qed.
  Lemma agree_pso_post P it s : agree (pso_post P it s) (pso_post P it s).
  Proof. unfold pso_post, restart, pso_set_alias, uniform_mat. d1. Qed.
  Theorem agree_cpso A : agree (cpso_minimize A) (cpso_minimize A).
  Proof.
    unfold cpso_minimize, cpso. d1. apply agree_drive; try (intros; reflexivity); intros; cbn [d_step d_post pso_drv].
    - apply agree_pso_step.
    - apply agree_pso_post.
  Qed.
  Theorem agree_pso A : agree (pso_minimize A) (pso_minimize A).
  Proof. apply agree_cpso. Qed.

  (** *** na *)
  Lemma agree_na_axis d mask xk U acc j : agree (na_axis d mask xk U acc j) (na_axis d mask xk U acc j).
  Proof. unfold na_axis. d1. Qed.
  Hint Resolve agree_na_axis : agree.
  Lemma agree_na_eval P X : agree (na_eval P X) (na_eval P X).
  Proof. unfold na_eval. d1. Qed.
  Hint Resolve agree_na_eval : agree.
  Lemma agree_na_step P it s : agree (na_step P it s) (na_step P it s).
  Proof. unfold na_step, na_mutation, na_one. d1. Qed.
  Theorem agree_na A : agree (na_minimize A) (na_minimize A).
  Proof.
    unfold na_minimize, na. d1. apply agree_drive; try (intros; reflexivity); intros; cbn [d_step d_post na_drv].
    - apply agree_na_step.
    - d1.
  Qed.

  (** *** cmaes, vdcma *)
  Lemma agree_cma_eval P X : agree (cma_eval P X) (cma_eval P X).
  Proof. unfold cma_eval. d1. Qed.
  Hint Resolve agree_cma_eval : agree.
  Lemma agree_cma_fitness P arx xm xo sg dc it pen : agree (cma_fitness P arx xm xo sg dc it pen) (cma_fitness P arx xm xo sg dc it pen).
  Proof. unfold cma_fitness, penalize. d1. Qed.
  Hint Resolve agree_cma_fitness : agree.
  Lemma agree_cma_record P it v f r : agree (cma_record P it v f r) (cma_record P it v f r).
  Proof. unfold cma_record. d1. Qed.
  Lemma agree_hist_set P it v h : agree (hist_set P it v h) (hist_set P it v h).
  Proof. unfold hist_set. d1. Qed.
  Lemma agree_cma_sample P s : agree (cma_sample P s) (cma_sample P s).
  Proof. unfold cma_sample. d1. Qed.
  Lemma agree_vd_sample P s : agree (vd_sample P s) (vd_sample P s).
  Proof. unfold vd_sample. d1. Qed.
  Hint Resolve agree_cma_record agree_hist_set agree_cma_sample agree_vd_sample : agree.
  Lemma agree_cma_step P it s : agree (cma_step P it s) (cma_step P it s).
  Proof. unfold cma_step. d1. Qed.
  Lemma agree_vd_step P it s : agree (vd_step P it s) (vd_step P it s).
  Proof. unfold vd_step. cbn zeta. d1. Qed.
  Lemma agree_cma_check A : agree (cma_check A) (cma_check A).
  Proof. unfold cma_check. d1. Qed.
  Lemma agree_cma_setup A : agree (cma_setup A) (cma_setup A).
  Proof. unfold cma_setup, cma_cons_check. d1. Qed.
  Lemma agree_cma_alloc a : agree (cma_alloc a) (cma_alloc a).
  Proof. unfold cma_alloc. d1. Qed.
  Hint Resolve agree_cma_check agree_cma_setup agree_cma_alloc : agree.
  Theorem agree_cmaes A : agree (cmaes_minimize A) (cmaes_minimize A).
  Proof.
    unfold cmaes_minimize, cmaes. d1. apply agree_drive; try (intros; reflexivity); intros; cbn [d_step d_post cma_drv].
    - apply agree_cma_step.
    - d1.
  Qed.
  Theorem agree_vdcma A : agree (vdcma_minimize A) (vdcma_minimize A).
  Proof.
    unfold vdcma_minimize, vdcma. d1. apply agree_drive; try (intros; reflexivity); intros; cbn [d_step d_post vd_drv].
    - apply agree_vd_step.
    - d1.
  Qed.

  (** *** mcmc, hmc *)
  Lemma agree_s_check_x0 a : agree (s_check_x0 a) (s_check_x0 a).
  Proof. unfold s_check_x0. d1. Qed.
  Lemma agree_s_steps a lo hi : agree (s_steps a lo hi) (s_steps a lo hi).
  Proof. unfold s_steps. cbn zeta. d1. Qed.
  Lemma agree_s_seed_cb a : agree (s_seed_cb a) (s_seed_cb a).
  Proof. unfold s_seed_cb. d1. Qed.
  Lemma agree_s_first a lo hi : agree (s_first a lo hi) (s_first a lo hi).
  Proof. unfold s_first. d1. Qed.
  Lemma agree_s_first_cb a x f : agree (s_first_cb a x f) (s_first_cb a x f).
  Proof. unfold s_first_cb. d1. Qed.
  Lemma agree_s_cb a c : agree (s_cb a c) (s_cb a c).
  Proof. unfold s_cb. d1. Qed.
  Hint Resolve agree_s_check_x0 agree_s_steps agree_s_seed_cb agree_s_first agree_s_first_cb agree_s_cb
    : agree.
  Lemma agree_mc_move P j c : agree (mc_move P j c) (mc_move P j c).
  Proof. unfold mc_move, mc_propose, rand. d1. Qed.
  Hint Resolve agree_mc_move : agree.
  Lemma agree_mc_inner P js c : agree (mc_inner P js c) (mc_inner P js c).
  Proof. revert c; induction js as [|j js IH]; intros c; cbn [mc_inner]; d1. Qed.
  Hint Resolve agree_mc_inner : agree.
  Lemma agree_mc_outer P fl c : agree (mc_outer P fl c) (mc_outer P fl c).
  Proof. revert c; induction fl as [|k IH]; intros c; cbn [mc_outer]; d1. Qed.
  Hint Resolve agree_mc_outer : agree.
  Theorem agree_mcmc A : agree (mcmc_sample A) (mcmc_sample A).
  Proof. unfold mcmc_sample, mcmc_fuel. d1. Qed.

  Lemma agree_count_fun nf x : agree (count_fun nf x) (count_fun nf x).
  Proof. unfold count_fun. d1. Qed.
  Hint Resolve agree_count_fun : agree.
  Lemma agree_hmc_jac j h nf q : agree (hmc_jac j h nf q) (hmc_jac j h nf q).
  Proof. unfold hmc_jac, numerical_gradient, ng_one. d1. Qed.
  Hint Resolve agree_hmc_jac : agree.
  Lemma agree_leap_loop j h step n q p nf : agree (leap_loop (hmc_jac j h) step n q p nf) (leap_loop (hmc_jac j h) step n q p nf).
  Proof. revert q p nf; induction n as [|k IH]; intros q p nf; cbn [leap_loop]; d1. Qed.
  Hint Resolve agree_leap_loop : agree.
  Lemma agree_hmc_move P cn : agree (hmc_move P cn) (hmc_move P cn).
  Proof. unfold hmc_move, leapfrog, rand. d1. Qed.
  Hint Resolve agree_hmc_move : agree.
  Lemma agree_hmc_loop P n cn : agree (hmc_loop P n cn) (hmc_loop P n cn).
  Proof. revert cn; induction n as [|k IH]; intros cn; cbn [hmc_loop]; d1. Qed.
  Hint Resolve agree_hmc_loop : agree.
  Theorem agree_hmc A : agree (hmc_sample A) (hmc_sample A).
  Proof. unfold hmc_sample. d1. Qed.

  (** ** The claim *)
  Lemma agree_exec {A} (m1 : @M N E A) (m2 : @M N E' A) w a0 r s r' s' : agree m1 m2 ->
    @exec N E _ m1 w a0 = (r, s) -> @exec N E' _ m2 w a0 = (r', s') ->
    (r' = r /\ rs s' = rs s /\ tr s' = tr s /\ argbuf s' = argbuf s) \/ Parted D (tr s) (tr s').
  Proof.
    intros (_ & _ & H) H1 H2. unfold exec in H1, H2.
    specialize (H (@mkSt N E w [] a0) (@mkSt N E' w [] a0)).
    change (@RNG N E') with (@RNG N E) in *. change (@US N E') with (@US N E) in *.
    rewrite H1, H2 in H. cbn [fst snd] in H.
    destruct H as [[Hr (Ha & Hb & Hc & _)]|HP]; [unfold Alike; cbn; auto| |right; exact HP].
    left. split; [congruence|]. split; [symmetry; exact Ha|]. split; [symmetry; exact Hb|symmetry; exact Hc].
  Qed.
  Lemma agree_opt c : agree (opt_run c) (opt_run c).
  Proof.
    destruct c; cbn [opt_run];
      [apply agree_de|apply agree_cpso|apply agree_pso|apply agree_na|apply agree_cmaes|apply agree_vdcma].
  Qed.
  (** Two objectives that may differ only in [D]: the same run, or the same up to the first
      evaluation in [D]. *)
  Theorem C79_optimizers c w a0 r s r' s' :
    @exec N E _ (opt_run c) w a0 = (r, s) -> @exec N E' _ (opt_run c) w a0 = (r', s') ->
    (r' = r /\ rs s' = rs s /\ tr s' = tr s /\ argbuf s' = argbuf s) \/ Parted D (tr s) (tr s').
  Proof. apply agree_exec, agree_opt. Qed.
  Theorem C79_mcmc A w a0 r s r' s' :
    @exec N E _ (mcmc_sample A) w a0 = (r, s) -> @exec N E' _ (mcmc_sample A) w a0 = (r', s') ->
    (r' = r /\ rs s' = rs s /\ tr s' = tr s /\ argbuf s' = argbuf s) \/ Parted D (tr s) (tr s').
  Proof. apply agree_exec, agree_mcmc. Qed.
  Theorem C79_hmc A w a0 r s r' s' :
    @exec N E _ (hmc_sample A) w a0 = (r, s) -> @exec N E' _ (hmc_sample A) w a0 = (r', s') ->
    (r' = r /\ rs s' = rs s /\ tr s' = tr s /\ argbuf s' = argbuf s) \/ Parted D (tr s) (tr s').
  Proof. apply agree_exec, agree_hmc. Qed.

  (** A run without evaluation in [D] is the run of the other objective too. *)
  Lemma parted_seen t t' : Parted D t t' -> ~ (forall x a, In (EEval x a) t -> D x = false).
  Proof.
    intros (t0 & x & a & a' & u & u' & -> & _ & Hx & _) H.
    rewrite (H x a) in Hx; [discriminate|]. apply in_or_app. right. left. reflexivity.
  Qed.
  Lemma unseen {A} (m1 : @M N E A) (m2 : @M N E' A) w a0 r s : agree m1 m2 ->
    @exec N E _ m1 w a0 = (r, s) -> (forall x a, In (EEval x a) (tr s) -> D x = false) ->
    exists s', @exec N E' _ m2 w a0 = (r, s') /\ rs s' = rs s /\ tr s' = tr s /\ argbuf s' = argbuf s.
  Proof.
    intros H H1 HD. destruct (@exec N E' _ m2 w a0) as [r' s'] eqn:H2.
    destruct (agree_exec m1 m2 w a0 r s r' s' H H1 H2) as [(-> & H3)|HP]; [exists s'; auto|].
    exfalso. exact (parted_seen _ _ HP HD).
  Qed.
  Theorem C79_unseen c w a0 r s : @exec N E _ (opt_run c) w a0 = (r, s) ->
    (forall x a, In (EEval x a) (tr s) -> D x = false) ->
    exists s', @exec N E' _ (opt_run c) w a0 = (r, s') /\ rs s' = rs s /\ tr s' = tr s /\ argbuf s' = argbuf s.
  Proof. apply unseen, agree_opt. Qed.
  Theorem C79_unseen_mcmc A w a0 r s : @exec N E _ (mcmc_sample A) w a0 = (r, s) ->
    (forall x a, In (EEval x a) (tr s) -> D x = false) ->
    exists s', @exec N E' _ (mcmc_sample A) w a0 = (r, s') /\ rs s' = rs s /\ tr s' = tr s /\ argbuf s' = argbuf s.
  Proof. apply unseen, agree_mcmc. Qed.
  Theorem C79_unseen_hmc A w a0 r s : @exec N E _ (hmc_sample A) w a0 = (r, s) ->
    (forall x a, In (EEval x a) (tr s) -> D x = false) ->
    exists s', @exec N E' _ (hmc_sample A) w a0 = (r, s') /\ rs s' = rs s /\ tr s' = tr s /\ argbuf s' = argbuf s.
  Proof. apply unseen, agree_hmc. Qed.
End Agree.

(** ** A needle: the objective changed at one point *)
Section Needle.
  Context {N : Num} {E : Env N}.
  (** np.array_equal(x, z) *)
  Definition array_equal (x z : vec) : bool :=
    Nat.eqb (length x) (length z) && forallb (fun p => neqb (fst p) (snd p)) (combine x z).
  (** the objective with the value [v] at [z] *)
  Definition needle (z : vec) (v : T) (x : vec) (w : RNG * US) : (T + nat) * (RNG * US) :=
    if array_equal x z then (inl v, w) else e_fun x w.

  (** Whatever value the objective has at a point that the run does not evaluate, the run is the
      same. *)
  Theorem C79_needle c z v w a0 r s : @exec N E _ (opt_run c) w a0 = (r, s) ->
    (forall x a, In (EEval x a) (tr s) -> array_equal x z = false) ->
    exists s', @exec N (other_fun E (needle z v)) _ (opt_run c) w a0 = (r, s') /\ rs s' = rs s /\ tr s' = tr s /\
               argbuf s' = argbuf s.
  Proof.
    apply (C79_unseen (fun x => array_equal x z)). intros x w' Hx. unfold needle. rewrite Hx. reflexivity.
  Qed.
End Needle.
