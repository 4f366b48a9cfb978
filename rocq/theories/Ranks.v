(** C67: with the same seed (or the same generator) on every rank, the ranks of an MPI run of any
    optimizer stay in lock-step.  Rank 0 runs in [E0], another rank in [E1]; the n-th Bcast and the
    n-th Allreduce deliver to the second what they deliver to the first ([Delivers]). *)
From Verif Require Import Base Num Env Common DE CPSO NA Mat CMAES VDCMA Hoare EvalRules Disc Par Lock
  Seed Visit.

(** Another rank: the same generator functions and the same numpy, but its own user code (the
    objective may even be another one), scheduler, rank, number of ranks and collectives. *)
Definition peer {N : Num} (E : Env N) (U : Type)
    (fn : vec -> @RNG N E * U -> (T + nat) * (@RNG N E * U))
    (cb : matrix -> CbState -> @RNG N E * U -> option nat * (@RNG N E * U))
    (scb : vec -> SCbState -> @RNG N E * U -> option nat * (@RNG N E * U))
    (sched : nat -> @RNG N E * U -> list nat) (rank size : nat)
    (bc : nat -> matrix -> matrix) (ar : nat -> matrix -> vec -> vec) : Env N :=
  @mkEnv N (@RNG N E) U (@e_seed N E) (@e_rand N E) (@e_randn N E) (@e_perm N E)
         (@e_randint N E) fn cb scb sched rank size bc ar
         (@e_argsort N E) (@e_percentile N E) (@e_median N E) (@e_eigh N E) (@e_empty N E).

(** User code returns and does not use numpy's generator. *)
Record Tame {N : Num} (E : Env N) : Prop := {
  ta_fun : forall x w, exists y w', @e_fun N E x w = (inl y, w') /\ fst w' = fst w;
  ta_cb : forall X st w, exists w', @e_cb N E X st w = (None, w') /\ fst w' = fst w }.

Section Ranks.
  Context {N : Num} {E0 : Env N}.
  Variables (U : Type) (fn : vec -> @RNG N E0 * U -> (T + nat) * (@RNG N E0 * U))
            (cb : matrix -> CbState -> @RNG N E0 * U -> option nat * (@RNG N E0 * U))
            (scb : vec -> SCbState -> @RNG N E0 * U -> option nat * (@RNG N E0 * U))
            (sched : nat -> @RNG N E0 * U -> list nat) (rank size : nat)
            (bc : nat -> matrix -> matrix) (ar : nat -> matrix -> vec -> vec).
  Let E1 : Env N := peer E0 U fn cb scb sched rank size bc ar.
  Variable t : list event.
  Hypothesis (H0 : Tame E0) (H1 : Tame E1) (HD : Delivers E1 t).

  Definition LK (s0 : @St N E0) (s1 : @St N E1) : Prop :=
    fst (rs s0) = fst (rs s1) /\
    bcasts (tr s0) = bcasts (tr s1) /\ reduces (tr s0) = reduces (tr s1) /\
    length (reduces (tr s0)) = length (bcasts (tr s0)) /\
    cbs (tr s0) = cbs (tr s1) /\ argbuf s0 = argbuf s1.

  Definition ext {A} (m : @M N E0 A) : Prop :=
    forall s, exists evs, tr (snd (m s)) = tr s ++ evs.

  (** The same outcome, as long as the collectives of the first do what they do in the whole
      run. *)
  Definition lk {A} (m0 : @M N E0 A) (m1 : @M N E1 A) : Prop :=
    ext m0 /\
    forall s0 s1, LK s0 s1 -> Good t (tr (snd (m0 s0))) ->
      LK (snd (m0 s0)) (snd (m1 s1)) /\ fst (m0 s0) = fst (m1 s1).

  Lemma ext_ret {A} (a : A) : ext (ret a).
  Proof. intros s. exists []. cbn. rewrite app_nil_r. reflexivity. Qed.
  Lemma lk_ret {A} (a : A) : lk (ret a) (ret a).
  Proof. split; [apply ext_ret|]. intros s1 s2 HR _. split; auto. Qed.
  Lemma lk_raise {A} e : lk (@raise N E0 A e) (raise e).
  Proof.
    split; [intros s; exists []; cbn; rewrite app_nil_r; reflexivity|].
    intros s1 s2 HR _. split; auto.
  Qed.
  Lemma lk_bind {A B} (m0 : @M N E0 A) (m1 : @M N E1 A) (k0 : A -> @M N E0 B) (k1 : A -> @M N E1 B) :
    lk m0 m1 -> (forall a, lk (k0 a) (k1 a)) -> lk (bind m0 k0) (bind m1 k1).
  Proof.
    intros [X H] Hk. split.
    - intros s. unfold bind. destruct (X s) as [e1 He1].
      destruct (m0 s) as [[a|x] s1] eqn:Em; cbn in *.
      + destruct (Hk a) as [X2 _]. destruct (X2 s1) as [e2 He2]. exists (e1 ++ e2).
        rewrite He2, He1, app_assoc. reflexivity.
      + exists e1. exact He1.
    - intros s1 s2 HR HG. unfold bind in *. specialize (H s1 s2 HR).
      destruct (m0 s1) as [[a|e] t1], (m1 s2) as [[b|e'] t2]; cbn in H.
      + destruct (Hk a) as [X2 H2].
        assert (HG' : Good t (tr t1)).
        { destruct (X2 t1) as (evs & He). rewrite He in HG. eapply good_before, HG. }
        destruct (H HG') as [HR' [= <-]]. apply H2; auto.
      + assert (HG' : Good t (tr t1)).
        { destruct (Hk a) as [X2 _]. destruct (X2 t1) as (evs & He). rewrite He in HG. eapply good_before, HG. }
        destruct (H HG') as [_ K]. discriminate.
      + destruct (H HG) as [_ K]. discriminate.
      + destruct (H HG) as [HR' [= <-]]. split; cbn; auto.
  Qed.
  Lemma lk_raise_if b e : lk (raise_if b e) (raise_if b e).
  Proof. destruct b; [apply lk_raise | apply lk_ret]. Qed.
  Lemma lk_orelse {A} (o : option A) e : lk (orelse o e) (orelse o e).
  Proof. destruct o; [apply lk_ret | apply lk_raise]. Qed.
  Lemma lk_when b m0 m1 : lk m0 m1 -> lk (when b m0) (when b m1).
  Proof. intro H. destruct b; [exact H | apply lk_ret]. Qed.
  Lemma lk_np_argmin v : lk (np_argmin v) (np_argmin v).
  Proof. destruct v; [apply lk_raise | apply lk_ret]. Qed.
  Lemma lk_set_arg X : lk (set_arg X) (set_arg X).
  Proof.
    split; [intros s; exists []; cbn; rewrite app_nil_r; reflexivity|].
    intros s1 s2 (A0 & A1 & A2 & A3 & A4 & _) _. repeat split; cbn; assumption.
  Qed.
  Lemma lk_seed o : lk (seed o) (seed o).
  Proof.
    split; [intros s; exists []; destruct o; cbn; rewrite app_nil_r; reflexivity|].
    intros s1 s2 (A0 & A1 & A2 & A3 & A4 & A5) _.
    destruct o; (split; [|reflexivity]); repeat split; cbn; auto.
  Qed.
  Lemma lk_draw {A} (f : @RNG N E0 -> A * @RNG N E0) : lk (@draw N E0 A f) (@draw N E1 A f).
  Proof.
    split.
    - intros s; exists []. unfold draw. destruct (f (fst (rs s))); cbn. rewrite app_nil_r. reflexivity.
    - intros s1 s2 (A0 & A1 & A2 & A3 & A4 & A5) _. unfold draw.
      change (@RNG N E1) with (@RNG N E0) in *. rewrite <- A0.
      destruct (f (fst (rs s1))) as [a r]. split; [|reflexivity]. repeat split; cbn; auto.
  Qed.
  Lemma lk_rand : lk rand rand. Proof. exact (lk_draw e_rand). Qed.
  Lemma lk_randn : lk randn randn. Proof. exact (lk_draw e_randn). Qed.
  Lemma lk_perm n : lk (perm n) (perm n). Proof. exact (lk_draw (e_perm n)). Qed.
  Lemma lk_randint n : lk (randint n) (randint n). Proof. exact (lk_draw (e_randint n)). Qed.
  Lemma lk_call_cb X st : lk (call_cb X st) (call_cb X st).
  Proof.
    split.
    - intros s. unfold call_cb. destruct (e_cb X st (rs s)) as [[n|] w]; cbn; eexists; reflexivity.
    - intros s1 s2 (A0 & A1 & A2 & A3 & A4 & A5) _. unfold call_cb.
      destruct (ta_cb _ H0 X st (rs s1)) as (w & Hw & Kw), (ta_cb _ H1 X st (rs s2)) as (w' & Hw' & Kw').
      rewrite Hw, Hw'. split; [|reflexivity]. unfold LK. cbn [snd tr argbuf rs].
      rewrite !bcasts_app, !reduces_app, !cbs_app. cbn. rewrite !app_nil_r.
      repeat split; try congruence. rewrite Kw, A0. symmetry. exact Kw'.
  Qed.

  Lemma lk_replicateM {A} n (m0 : @M N E0 A) (m1 : @M N E1 A) :
    lk m0 m1 -> lk (replicateM n m0) (replicateM n m1).
  Proof.
    intros H. induction n as [|n IH]; cbn; [apply lk_ret|].
    apply lk_bind; [exact H|]. intros a. apply lk_bind; [exact IH|]. intros l. apply lk_ret.
  Qed.
  Lemma lk_mapM {A B} (f0 : A -> @M N E0 B) (f1 : A -> @M N E1 B) l :
    (forall a, lk (f0 a) (f1 a)) -> lk (mapM f0 l) (mapM f1 l).
  Proof.
    intros H. induction l as [|x l IH]; cbn; [apply lk_ret|].
    apply lk_bind; [apply H|]. intros a. apply lk_bind; [exact IH|]. intros bs. apply lk_ret.
  Qed.
  Lemma lk_foldM {A B} (f0 : A -> B -> @M N E0 A) (f1 : A -> B -> @M N E1 A) l : forall acc,
    (forall a b, lk (f0 a b) (f1 a b)) -> lk (foldM f0 acc l) (foldM f1 acc l).
  Proof.
    induction l as [|x l IH]; intros acc H; cbn; [apply lk_ret|].
    apply lk_bind; [apply H|]. intros a. apply IH, H.
  Qed.

  (** *** Evaluation *)
  Lemma tame_returns {E : Env N} (HE : Tame E) :
    (forall x w, exists y w', @e_fun N E x w = (inl y, w')).
  Proof. intros x w. destruct (ta_fun _ HE x w) as (y & w' & H & _). eauto. Qed.

  Lemma fill_tame {E : Env N} (HE : Tame E) (X : matrix) l : forall (f : vec) s,
    exists g s' evs,
      foldM (fun f i => y <- @call_fun N E (nth i X []) ;; ret (upd i y f)) f l s = (inl g, s') /\
      fst (rs s') = fst (rs s) /\
      tr s' = tr s ++ evs /\ bcasts evs = [] /\ reduces evs = [] /\ cbs evs = [] /\
      argbuf s' = argbuf s.
  Proof.
    induction l as [|i l IH]; intros f s; cbn [foldM].
    - exists f, s, []. rewrite app_nil_r. repeat split; reflexivity.
    - unfold bind, call_fun at 1. destruct (ta_fun _ HE (nth i X []) (rs s)) as (y & w & Hy & Kw).
      rewrite Hy. cbn [ret].
      destruct (IH (upd i y f) (mkSt w (tr s ++ [EEval (nth i X []) (inl y)]) (argbuf s)))
        as (g & s' & evs & K1 & K0 & K2 & K3 & K4 & K5 & K6).
      exists g, s', (EEval (nth i X []) (inl y) :: evs). unfold bind in K1. rewrite K1.
      split; [reflexivity|]. split; [rewrite K0; exact Kw|].
      rewrite K2. cbn. rewrite <- app_assoc. repeat split; assumption.
  Qed.

  Lemma mpi_tame {E : Env N} (HE : Tame E) X s :
    exists s' evs,
      let B := @e_bcast N E (length (bcasts (tr s))) X in
      exists g, eval_mpi X s = (inl (B, @e_allreduce N E (length (bcasts (tr s))) B g), s') /\
      fst (rs s') = fst (rs s) /\
      tr s' = tr s ++ evs /\ bcasts evs = [B] /\
      reduces evs = [@e_allreduce N E (length (bcasts (tr s))) B g] /\ cbs evs = [] /\
      argbuf s' = argbuf s.
  Proof.
    unfold eval_mpi, bind, mpi_bcast. rewrite nbcast_bcasts. cbn zeta.
    set (B := @e_bcast N E (length (bcasts (tr s))) X).
    destruct (fill_tame HE B (arange e_rank (length B) e_mpisize) (repeat n0 (length B))
                (mkSt (rs s) (tr s ++ [EBcast B]) (argbuf s)))
      as (g & s' & evs & K1 & K0 & K2 & K3 & K4 & K5 & K6).
    unfold bind in K1. rewrite K1. unfold mpi_allreduce.
    assert (HN : nbcast (tr s') - 1 = length (bcasts (tr s))).
    { rewrite nbcast_bcasts, K2. cbn [tr]. rewrite !bcasts_app, K3, !app_length. cbn. lia. }
    rewrite HN. cbn [ret].
    eexists. exists (EBcast B :: evs ++ [EReduce (@e_allreduce N E (length (bcasts (tr s))) B g)]).
    exists g. split; [reflexivity|]. cbn [tr argbuf rs]. rewrite K2. cbn in K6, K0 |- *.
    rewrite <- !app_assoc. cbn. rewrite !bcasts_app, !reduces_app, !cbs_app, K3, K4, K5. cbn.
    repeat split; assumption.
  Qed.

  Lemma lk_eval X : lk (eval_pop Mpi X) (eval_pop Mpi X).
  Proof.
    split.
    - intros s. cbn [eval_pop]. destruct (mpi_tame H0 X s) as (s' & evs & g & K1 & _ & K2 & _).
      rewrite K1. exists evs. exact K2.
    - intros s0 s1 (A0 & A1 & A2 & A3 & A4 & A5) HG. cbn [eval_pop] in *.
      destruct (mpi_tame H0 X s0) as (s0' & v0 & g0 & K1 & K0 & K2 & K3 & K4 & K5 & K6).
      destruct (mpi_tame H1 X s1) as (s1' & v1 & g1 & L1 & L0 & L2 & L3 & L4 & L5 & L6).
      rewrite K1 in HG |- *. rewrite L1. cbn [fst snd] in *. rewrite K2 in HG.
      destruct HG as [[b Hb] [v Hv]]. rewrite bcasts_app, K3, <- app_assoc in Hb.
      rewrite reduces_app, K4, <- app_assoc in Hv.
      assert (HB : @e_bcast N E1 (length (bcasts (tr s1))) X = @e_bcast N E0 (length (bcasts (tr s0))) X).
      { rewrite (dl_bcast _ _ HD), <- A1. eapply nth_prefix, Hb. }
      assert (HV : @e_allreduce N E1 (length (bcasts (tr s1))) (@e_bcast N E1 (length (bcasts (tr s1))) X) g1
                   = @e_allreduce N E0 (length (bcasts (tr s0))) (@e_bcast N E0 (length (bcasts (tr s0))) X) g0).
      { rewrite (dl_reduce _ _ HD), <- A1. rewrite <- A3 at 1. eapply nth_prefix, Hv. }
      rewrite HB in L3, L4, HV |- *. rewrite HV in L4 |- *. split; [|reflexivity].
      unfold LK. rewrite K2, L2, !bcasts_app, !reduces_app, !cbs_app, K3, K4, K5, L3, L4, L5, !app_length.
      cbn. repeat split; try congruence. rewrite K0, A0. symmetry. exact L0.
  Qed.

  Ltac lk1 :=
    repeat first
      [ apply lk_ret | apply lk_raise | apply lk_raise_if | apply lk_orelse | apply lk_np_argmin
      | apply lk_set_arg | apply lk_seed | apply lk_rand | apply lk_randn | apply lk_perm
      | apply lk_randint | apply lk_call_cb | apply lk_eval
      | solve [auto 1 with lk nocore]
      | apply lk_when
      | apply lk_bind; [|intro]
      | apply lk_replicateM | (apply lk_mapM; intro) | (apply lk_foldM; intro; intro)
      | match goal with
        | |- lk (let _ := _ in _) _ => cbn zeta
        | |- lk (match ?x with _ => _ end) (match ?y with _ => _ end) => change y with x; destruct x
        | |- lk ((match ?x with _ => _ end) _) ((match ?y with _ => _ end) _) =>
            change y with x; destruct x
        end ].

  Lemma lk_uniform lo hi : lk (uniform lo hi) (uniform lo hi).
  Proof. unfold uniform. lk1. Qed.
  Hint Resolve lk_uniform : lk.
  Lemma lk_uniform_vec lo hi : lk (uniform_vec lo hi) (uniform_vec lo hi).
  Proof. unfold uniform_vec, urange, uniform_row. lk1. Qed.
  Lemma lk_uniform1 lo hi : lk (uniform1 lo hi) (uniform1 lo hi).
  Proof. unfold uniform1, urange. lk1. Qed.
  Hint Resolve lk_uniform1 : lk.
  Lemma lk_rand_mat p d : lk (rand_mat p d) (rand_mat p d).
  Proof. unfold rand_mat. lk1. Qed.
  Lemma lk_randn_vec d : lk (randn_vec d) (randn_vec d).
  Proof. unfold randn_vec. lk1. Qed.
  Hint Resolve lk_uniform_vec lk_rand_mat lk_randn_vec : lk.
  Lemma lk_uniform_mat p lo hi : lk (uniform_mat p lo hi) (uniform_mat p lo hi).
  Proof. unfold uniform_mat, urange, uniform_row. lk1. Qed.
  Lemma lk_lhs p d lo hi : lk (lhs p d lo hi) (lhs p d lo hi).
  Proof. unfold lhs. lk1. Qed.
  Lemma lk_rec_write a b c d e f g : lk (rec_write a b c d e f g) (rec_write a b c d e f g).
  Proof. unfold rec_write, rec_put. lk1. Qed.
  Lemma lk_rec_alloc a b c d : lk (rec_alloc a b c d) (rec_alloc a b c d).
  Proof. unfold rec_alloc, rec_nout. lk1. Qed.
  Lemma lk_unpack b : lk (unpack_bounds b) (unpack_bounds b).
  Proof. unfold unpack_bounds. lk1. Qed.
  Lemma lk_check_pop a : lk (check_pop a) (check_pop a).
  Proof. unfold check_pop. lk1. Qed.
  Lemma lk_seed_and_cb a : lk (seed_and_cb a) (seed_and_cb a).
  Proof. unfold seed_and_cb. lk1. Qed.
  Lemma lk_check_updating u : lk (check_updating u) (check_updating u).
  Proof. unfold check_updating. lk1. Qed.
  Hint Resolve lk_uniform_mat lk_lhs lk_rec_write lk_rec_alloc lk_unpack lk_check_pop lk_seed_and_cb
    lk_check_updating : lk.
  Lemma lk_selection it c xb x xf mx xt ft ev0 ev1 :
    (forall X, lk (ev0 X) (ev1 X)) ->
    lk (@selection_sync N E0 it c xb x xf mx xt ft ev0) (@selection_sync N E1 it c xb x xf mx xt ft ev1).
  Proof. intros H. unfold selection_sync. apply lk_bind; [apply H|intro]. lk1. Qed.

  Lemma lk_drive {S} (D0 : @Drv N E0 S) (D1 : @Drv N E1 S) cb' fl :
    d_pop D0 = d_pop D1 -> d_x D0 = d_x D1 -> d_fun D0 = d_fun D1 -> d_nfev D0 = d_nfev D1 ->
    d_rec D0 = d_rec D1 ->
    (forall it s, lk (d_step D0 it s) (d_step D1 it s)) ->
    (forall it s, lk (d_post D0 it s) (d_post D1 it s)) ->
    forall it s, lk (drive D0 cb' fl it s) (drive D1 cb' fl it s).
  Proof.
    intros E1' E2 E3 E4 E5 HS HP. induction fl as [|k IH]; intros it s; cbn [drive]; [lk1|].
    cbn zeta. apply lk_bind; [apply HS|]. intros [s' st].
    apply lk_bind.
    - unfold cb_state. rewrite E1', E2, E3, E4, E5. lk1.
    - intros _. destruct st as [c|].
      + unfold result. rewrite E2, E3, E4, E5. lk1.
      + apply lk_bind; auto.
  Qed.

  (** *** de *)
  Lemma lk_de_step P it s : de_mode P = Mpi -> lk (de_step P true it s) (de_step P true it s).
  Proof.
    intros HM. unfold de_step, de_sync, de_cands, set_alias, delete_shuffle, de_cons, np_randint.
    rewrite HM. lk1.
  Qed.
  Lemma mpi_kind b w : b = Some "mpi"%string -> eval_kind true w b = inl Mpi.
  Proof. intros ->. reflexivity. Qed.
  Lemma lk_kind w b : b = Some "mpi"%string -> lk (eval_kindM true w b) (eval_kindM true w b).
  Proof. intros H. unfold eval_kindM. rewrite (mpi_kind _ _ H). lk1. Qed.
  Lemma mpi_sync up a : a_backend a = Some "mpi"%string -> is_sync up a = true.
  Proof. intros H. unfold is_sync. rewrite H. apply orb_true_r. Qed.

  Lemma lk_de A : a_backend (dea A) = Some "mpi"%string -> lk (de_minimize A) (de_minimize A).
  Proof.
    intros HB. unfold de_minimize. cbn zeta. rewrite (mpi_sync _ _ HB).
    unfold de, eval_kindM. rewrite (mpi_kind _ _ HB).
    change (@bind N E0 Mode ?B (ret Mpi) ?k) with (k Mpi).
    change (@bind N E1 Mode ?B (ret Mpi) ?k) with (k Mpi). cbn beta zeta.
    lk1. apply lk_drive; try reflexivity; intros.
    - apply lk_de_step. reflexivity.
    - apply lk_ret.
  Qed.

  (** *** cpso, pso *)
  Lemma lk_pso_step P it s : ps_mode P = Mpi -> lk (pso_step P true it s) (pso_step P true it s).
  Proof.
    intros HM. unfold pso_step, pso_sync. rewrite HM. lk1.
  Qed.
  Lemma lk_pso_post P it s : lk (pso_post P it s) (pso_post P it s).
  Proof. unfold pso_post, restart, pso_set_alias. lk1. Qed.
  Lemma lk_cpso A : a_backend (pa A) = Some "mpi"%string -> lk (cpso_minimize A) (cpso_minimize A).
  Proof.
    intros HB. unfold cpso_minimize. cbn zeta. rewrite (mpi_sync _ _ HB).
    unfold cpso, eval_kindM. rewrite (mpi_kind _ _ HB).
    change (@bind N E0 Mode ?B (ret Mpi) ?k) with (k Mpi).
    change (@bind N E1 Mode ?B (ret Mpi) ?k) with (k Mpi). cbn beta zeta.
    lk1; (apply lk_drive; try reflexivity; intros;
      [apply lk_pso_step; reflexivity | apply lk_pso_post]).
  Qed.

  (** *** na *)
  Lemma lk_na_eval P X : na_mode P = Mpi -> lk (na_eval P X) (na_eval P X).
  Proof. intros HM. unfold na_eval. rewrite HM. lk1. Qed.
  Lemma lk_na_step P it s : na_mode P = Mpi -> lk (na_step P it s) (na_step P it s).
  Proof.
    intros HM. unfold na_step, na_mutation, na_one, na_axis, na_eval. rewrite HM. lk1.
  Qed.
  Lemma lk_na A : a_backend (naa A) = Some "mpi"%string -> lk (na_minimize A) (na_minimize A).
  Proof.
    intros HB. unfold na_minimize. cbn zeta.
    unfold na, eval_kindM. rewrite (mpi_kind _ _ HB).
    change (@bind N E0 Mode ?B (ret Mpi) ?k) with (k Mpi).
    change (@bind N E1 Mode ?B (ret Mpi) ?k) with (k Mpi). cbn beta zeta.
    lk1; try (apply lk_na_eval; reflexivity); (apply lk_drive; try reflexivity; intros;
      [apply lk_na_step; reflexivity | apply lk_ret]).
  Qed.

  (** *** cmaes, vdcma *)
  Lemma lk_cma_eval P X : cm_mode P = Mpi -> lk (cma_eval P X) (cma_eval P X).
  Proof. intros HM. unfold cma_eval. rewrite HM. lk1. Qed.
  Lemma lk_cma_fitness P arx xm xo sg dc it pen : cm_mode P = Mpi ->
    lk (cma_fitness P arx xm xo sg dc it pen) (cma_fitness P arx xm xo sg dc it pen).
  Proof.
    intros HM. unfold cma_fitness, penalize. pose proof (fun X => lk_cma_eval P X HM) as K.
    destruct (cm_pen P).
    - apply lk_bind; [apply K|]. intro. lk1.
    - apply lk_bind; [apply K|]. intro. lk1.
  Qed.
  Lemma lk_cma_record P it v f r : lk (cma_record P it v f r) (cma_record P it v f r).
  Proof. unfold cma_record. lk1. Qed.
  Lemma lk_hist_set P it v h : lk (hist_set P it v h) (hist_set P it v h).
  Proof. unfold hist_set. lk1. Qed.
  Lemma lk_cma_sample P s : lk (cma_sample P s) (cma_sample P s).
  Proof. unfold cma_sample. lk1. Qed.
  Lemma lk_vd_sample P s : lk (vd_sample P s) (vd_sample P s).
  Proof. unfold vd_sample. lk1. Qed.
  Hint Resolve lk_cma_record lk_hist_set lk_cma_sample lk_vd_sample : lk.
  Lemma lk_cma_step P it s : cm_mode P = Mpi -> lk (cma_step P it s) (cma_step P it s).
  Proof. intros HM. unfold cma_step. lk1. apply lk_cma_fitness, HM. Qed.
  Lemma lk_vd_step P it s : cm_mode P = Mpi -> lk (vd_step P it s) (vd_step P it s).
  Proof. intros HM. unfold vd_step. cbn zeta. lk1. apply lk_cma_fitness, HM. Qed.
  Lemma lk_cma_check A : lk (cma_check A) (cma_check A).
  Proof. unfold cma_check. lk1. Qed.
  Lemma lk_cma_alloc a : lk (cma_alloc a) (cma_alloc a).
  Proof. unfold cma_alloc. lk1. Qed.

  Lemma lk_post {A B} (m0 : @M N E0 A) (m1 : @M N E1 A) (k0 : A -> @M N E0 B) (k1 : A -> @M N E1 B)
      (P : A -> Prop) :
    lk m0 m1 -> gives m0 P -> (forall a, disc (k0 a)) ->
    (forall a, P a -> lk (k0 a) (k1 a)) -> lk (bind m0 k0) (bind m1 k1).
  Proof.
    intros [X H] HP Hd Hk. split.
    - intros s. unfold bind. destruct (X s) as [e1 He1].
      destruct (m0 s) as [[a|x] s1] eqn:Em; cbn in *.
      + destruct (Hd a s1) as (e2 & He2 & _). exists (e1 ++ e2).
        rewrite He2, He1, app_assoc. reflexivity.
      + exists e1. exact He1.
    - intros s1 s2 HR HG. unfold bind in *. specialize (H s1 s2 HR). specialize (HP s1).
      destruct (m0 s1) as [[a|e] t1], (m1 s2) as [[b|e'] t2]; cbn in H.
      + assert (HG' : Good t (tr t1)).
        { destruct (Hd a t1) as (evs & He & _). rewrite He in HG. eapply good_before, HG. }
        destruct (H HG') as [HR' [= <-]]. apply Hk; [|auto|auto]. eapply HP. reflexivity.
      + assert (HG' : Good t (tr t1)).
        { destruct (Hd a t1) as (evs & He & _). rewrite He in HG. eapply good_before, HG. }
        destruct (H HG') as [_ K]. discriminate.
      + destruct (H HG) as [_ K]. discriminate.
      + destruct (H HG) as [HR' [= <-]]. split; cbn; auto.
  Qed.

  Lemma setup_mode {E : Env N} A : a_backend (caa A) = Some "mpi"%string ->
    gives (@cma_setup N E A) (fun r => cm_mode (snd r) = Mpi).
  Proof.
    intros HB. unfold cma_setup, eval_kindM. rewrite (mpi_kind _ _ HB). cbn zeta.
    eapply gives_bind; [apply (gives_ret Mpi (fun m => m = Mpi)); reflexivity|]. intros m ->.
    eapply gives_bind; [apply gives_any|]. intros [lo hi] _.
    eapply gives_bind; [apply gives_any|]. intros pen _.
    eapply gives_bind; [apply gives_any|]. intros xm _.
    eapply gives_bind; [apply gives_any|]. intros mu _.
    apply gives_ret. reflexivity.
  Qed.
  Lemma lk_cma_setup A : a_backend (caa A) = Some "mpi"%string -> lk (cma_setup A) (cma_setup A).
  Proof.
    intros HB. unfold cma_setup, eval_kindM, cma_cons_check. rewrite (mpi_kind _ _ HB). lk1.
  Qed.
  Lemma lk_cmaes A : a_backend (caa A) = Some "mpi"%string -> lk (cmaes_minimize A) (cmaes_minimize A).
  Proof.
    intros HB. unfold cmaes_minimize, cmaes. apply lk_bind; [apply lk_cma_check|]. intros _. cbn zeta.
    eapply lk_post; [apply lk_cma_setup, HB|apply setup_mode, HB| |].
    - intros [xm P]. d1; [unfold cma_alloc; d1; apply disc_rec_alloc|].
      apply disc_drive; intros; [apply disc_cma_step|apply disc_ret].
    - intros [xm P] HM. cbn [snd] in HM. apply lk_bind; [apply lk_cma_alloc|]. intros [no il].
      apply lk_drive; try reflexivity; intros; [apply lk_cma_step, HM|apply lk_ret].
  Qed.
  Lemma lk_vdcma A : a_backend (caa A) = Some "mpi"%string -> lk (vdcma_minimize A) (vdcma_minimize A).
  Proof.
    intros HB. unfold vdcma_minimize, vdcma. apply lk_bind; [apply lk_cma_check|]. intros _. cbn zeta.
    eapply lk_post; [apply lk_cma_setup, HB|apply setup_mode, HB| |].
    - intros [xm P]. d1; [unfold cma_alloc; d1; apply disc_rec_alloc|].
      apply disc_drive; intros; [apply disc_vd_step|apply disc_ret].
    - intros [xm P] HM. cbn [snd] in HM. apply lk_bind; [apply lk_randn_vec|]. intros z.
      apply lk_bind; [apply lk_cma_alloc|]. intros [no il].
      apply lk_drive; try reflexivity; intros; [apply lk_vd_step, HM|apply lk_ret].
  Qed.

  Lemma lk_run {A} (m0 : @M N E0 A) (m1 : @M N E1 A) w0 w1 a0 :
    lk m0 m1 -> fst w0 = fst w1 -> t = tr (snd (@exec N E0 _ m0 w0 a0)) ->
    InStep (@exec N E0 _ m0 w0 a0) (@exec N E1 _ m1 w1 a0) /\
    fst (rs (snd (@exec N E0 _ m0 w0 a0))) = fst (rs (snd (@exec N E1 _ m1 w1 a0))).
  Proof.
    intros [_ H] Hw Ht. unfold exec in *. destruct (H (mkSt w0 [] a0) (@mkSt N E1 w1 [] a0))
      as [(K0 & K1 & K2 & _ & K4 & K5) K6].
    - repeat split. exact Hw.
    - rewrite <- Ht. split; exists []; rewrite app_nil_r; reflexivity.
    - split; [split|]; auto.
  Qed.
End Ranks.

Section Calls.
  Context {N : Num}.
  (** A call of one of the six optimizers. *)
  Inductive OptCall :=
  | PDe (A : DEArgs) | PCpso (A : CPSOArgs) | PPso (A : PSOArgs) | PNa (A : NAArgs)
  | PCmaes (A : CMAArgs) | PVdcma (A : CMAArgs).
  Definition opt_args (c : OptCall) : Args :=
    match c with
    | PDe A => dea A | PCpso A => pa A | PPso A => psa A | PNa A => naa A
    | PCmaes A => caa A | PVdcma A => caa A
    end.
  Definition opt_run {E : Env N} (c : OptCall) : M OptRes :=
    match c with
    | PDe A => de_minimize A | PCpso A => cpso_minimize A | PPso A => pso_minimize A
    | PNa A => na_minimize A | PCmaes A => cmaes_minimize A | PVdcma A => vdcma_minimize A
    end.
  Lemma seeded {E : Env N} c z : a_seed (opt_args c) = Some z -> same_run (opt_run c).
  Proof.
    destruct c; cbn; intros H; [eapply C44_seed_de|eapply C44_seed_cpso|eapply C44_seed_pso|
      eapply C44_seed_na|eapply C44_seed_cmaes|eapply C44_seed_vdcma]; exact H.
  Qed.
End Calls.

(** Ranks whose generators are in the same state, or that all get the same seed, end with the same
    outcome (result or exception) after the same collectives and the same calls of the callback. *)
Theorem C67_in_step {N : Num} (E0 : Env N) U fn cb scb sched rank size bc ar (c : OptCall) w0 w1 a0 :
  let E1 := peer E0 U fn cb scb sched rank size bc ar in
  a_backend (opt_args c) = Some "mpi"%string ->
  fst w0 = fst w1 \/ a_seed (opt_args c) <> None ->
  Tame E0 -> Tame E1 ->
  Delivers E1 (tr (snd (@exec N E0 _ (opt_run c) w0 a0))) ->
  InStep (@exec N E0 _ (opt_run c) w0 a0) (@exec N E1 _ (opt_run c) w1 a0) /\
  (fst w0 = fst w1 ->
   fst (rs (snd (@exec N E0 _ (opt_run c) w0 a0))) = fst (rs (snd (@exec N E1 _ (opt_run c) w1 a0)))).
Proof.
  intros E1 HB HW H0 H1 HD.
  assert (G : forall w1' : @RNG N E1 * @US N E1, fst w0 = fst w1' ->
     InStep (@exec N E0 _ (opt_run c) w0 a0) (@exec N E1 _ (opt_run c) w1' a0) /\
     fst (rs (snd (@exec N E0 _ (opt_run c) w0 a0)))
     = fst (rs (snd (@exec N E1 _ (opt_run c) w1' a0)))).
  { intros w1' Hw. eapply lk_run; [|exact Hw|reflexivity].
    destruct c; cbn [opt_run opt_args] in *; [apply lk_de|apply lk_cpso|
      unfold pso_minimize; apply lk_cpso|apply lk_na|apply lk_cmaes|apply lk_vdcma]; assumption. }
  split; [|intros Hw; apply G, Hw].
  destruct HW as [HW|HW]; [apply G, HW|].
  destruct (a_seed (opt_args c)) as [z|] eqn:Hz; [|contradiction].
  destruct w1 as [g1 u1]. pose proof (seeded (E := E1) c z Hz g1 (fst w0) u1 a0) as (S1 & S2 & S3 & _).
  destruct (G (fst w0, u1) eq_refl) as [[K1 K2 K3 K4 K5] _].
  split.
  - rewrite K1. symmetry. exact S1.
  - rewrite K2. f_equal. symmetry. exact S2.
  - rewrite K3. f_equal. symmetry. exact S2.
  - rewrite K4. f_equal. symmetry. exact S2.
  - rewrite K5. symmetry. exact S3.
Qed.
