(** C66: return_all, verbosity and the callback only watch a run. *)
From Verif Require Import Base Num Env Common DE CPSO NA Mat CMAES VDCMA Sample Hoare Disc Rel.

(** The same call with other settings of return_all, verbosity and callback. *)
Definition watched {N : Num} (ra : bool) (v : T) (cb : CbArg) (a : Args) : Args :=
  mkArgs (a_callable a) (a_bounds a) (a_x0 a) (a_x0_array a) (a_maxiter a) (a_popsize a) (a_seed a)
         (a_xtol a) (a_ftol a) (a_constraints a) (a_workers a) (a_backend a) ra v cb.
Definition s_watched {N : Num} (ra : bool) (cb : CbArg) (a : SArgs) : SArgs :=
  mkSArgs (s_callable a) (s_bounds a) (s_x0 a) (s_maxiter a) (s_stepsize a) (s_stepsize_array a)
          (s_seed a) (s_constraints a) ra cb.

(** The trace without the calls of the callback. *)
Definition calls {N : Num} (t : list event) : list event :=
  filter (fun e => match e with ECb _ _ _ | ESCb _ _ _ => false | _ => true end) t.

Arguments calls : simpl never.

Lemma calls_le {N : Num} (t : list event) : length (calls t) <= length t.
Proof. unfold calls. induction t as [|e t IH]; [apply le_n|]. destruct e; cbn [filter length]; lia. Qed.
Lemma calls_all {N : Num} (t : list event) : length t - length (calls t) = 0 -> calls t = t.
Proof.
  induction t as [|e t IH]; intros H; [reflexivity|]. pose proof (calls_le t).
  unfold calls in *. destruct e; cbn [filter length] in *; try (f_equal; apply IH; lia); lia.
Qed.

(** [K w1 w2]: the generators are in the same state and the objective cannot tell the user's
    states apart.  The callback may change what only it looks at. *)
Record Harmless {N : Num} {E : Env N} (K : RNG * US -> RNG * US -> Prop) : Prop := mkHarmless {
  hk_gen : forall w1 w2, K w1 w2 -> fst w1 = fst w2;
  hk_set : forall w1 w2 g, K w1 w2 -> K (g, snd w1) (g, snd w2);
  hk_fun : forall x w1 w2, K w1 w2 ->
    fst (e_fun x w1) = fst (e_fun x w2) /\ K (snd (e_fun x w1)) (snd (e_fun x w2));
  hk_sched : forall n w1 w2, K w1 w2 -> e_sched n w1 = e_sched n w2;
  hk_cb : forall X st w1 w2, K w1 w2 -> K (snd (e_cb X st w1)) w2;
  hk_scb : forall x st w1 w2, K w1 w2 -> K (snd (e_scb x st w1)) w2 }.

(** The exceptions of the watching itself: those of the callback, those of the arrays of
    return_all, and the refusal of a callback that is not callable. *)
Definition own (ra : bool) (cb : CbArg) (e : Exn) : Prop :=
  (cb = CbFun /\ exists n, e = UserError n) \/
  (ra = true /\ (e = ValueError \/ e = IndexError \/ e = OverflowError)) \/
  (cb = CbBad /\ e = ValueError).

(** The results without the history. *)
Definition same_res {N : Num} (r b : OptRes) : Prop :=
  r_x r = r_x b /\ r_success r = r_success b /\ r_status r = r_status b /\
  r_message r = r_message b /\ r_fun r = r_fun b /\ r_nfev r = r_nfev b /\ r_nit r = r_nit b.
Definition same_samp {N : Num} (r b : SampRes) : Prop :=
  sr_x r = sr_x b /\ sr_fun r = sr_fun b /\ sr_nit r = sr_nit b /\
  sr_accept r = sr_accept b /\ sr_nfev r = sr_nfev b.

(** [o1], [o2]: a watched run and the same run unwatched. *)
Definition only_watched {N : Num} {E : Env N} {A} (K : RNG * US -> RNG * US -> Prop)
    (X : Exn -> Prop) (Q : A -> A -> Prop) (o1 o2 : (A + Exn) * St) : Prop :=
  match fst o1 with
  | inl a =>
      exists b, fst o2 = inl b /\ Q a b /\ K (rs (snd o1)) (rs (snd o2)) /\
                calls (tr (snd o1)) = calls (tr (snd o2)) /\
                argbuf (snd o1) = argbuf (snd o2)
  | inr e =>
      (fst o2 = inr e /\ calls (tr (snd o1)) = calls (tr (snd o2)) /\
       argbuf (snd o1) = argbuf (snd o2)) \/
      (X e /\ exists rest, calls (tr (snd o2)) = calls (tr (snd o1)) ++ rest)
  end.

Section Watch.
  Context {N : Num} {E : Env N}.
  Variable K : RNG * US -> RNG * US -> Prop.
  Hypothesis HK : Harmless K.
  Variable X : Exn -> Prop.

  Definition Wr (s1 s2 : St) : Prop :=
    K (rs s1) (rs s2) /\ calls (tr s1) = calls (tr s2) /\ argbuf s1 = argbuf s2.

  Lemma calls_app t u : calls (t ++ u) = calls t ++ calls u.
  Proof. apply filter_app. Qed.
  Lemma calls_cb t p st r : calls (t ++ [ECb p st r]) = calls t.
  Proof. rewrite calls_app. apply app_nil_r. Qed.
  Lemma calls_scb t p st r : calls (t ++ [ESCb p st r]) = calls t.
  Proof. rewrite calls_app. apply app_nil_r. Qed.
  Lemma nbcast_calls t : nbcast (calls t) = nbcast t.
  Proof.
    induction t as [|e t IH]; [reflexivity|]. unfold calls in *. destruct e; cbn; rewrite ?IH; reflexivity.
  Qed.

  (** *** The two runs in step *)
  Notation blind m := (rel Wr m m eq).

  Lemma bl_ret {A} (a : A) : blind (ret a).
  Proof. apply rel_ret. reflexivity. Qed.
  Lemma bl_bind {A B} (m : M A) (k : A -> M B) :
    blind m -> (forall a, blind (k a)) -> blind (bind m k).
  Proof. intros H1 H2. eapply rel_bind; [exact H1|]. intros a b <-. apply H2. Qed.
  Lemma bl_draw {A} (f : RNG -> A * RNG) : blind (draw f).
  Proof.
    intros s1 s2 [H1 [H2 H3]]. unfold draw. rewrite (hk_gen _ HK _ _ H1).
    destruct (f (fst (rs s2))) as [a g]. cbn. split; [|reflexivity].
    split; [|split; assumption]. apply (hk_set _ HK), H1.
  Qed.
  Lemma bl_seed o : blind (seed o).
  Proof.
    destruct o as [z|]; [|apply bl_ret]. intros s1 s2 [H1 [H2 H3]]. cbn. split; [|reflexivity].
    split; [|split; assumption]. apply (hk_set _ HK), H1.
  Qed.
  Lemma bl_call_fun x : blind (call_fun x).
  Proof.
    intros s1 s2 [H1 [H2 H3]]. unfold call_fun.
    destruct (hk_fun _ HK x _ _ H1) as [Hf Hw].
    destruct (e_fun x (rs s1)) as [r1 w1], (e_fun x (rs s2)) as [r2 w2]. cbn in *. subst r2.
    split.
    - split; [exact Hw|]. cbn. split; [|exact H3]. rewrite !calls_app, H2. reflexivity.
    - destruct r1; reflexivity.
  Qed.
  Lemma bl_get_sched n : blind (get_sched n).
  Proof.
    intros s1 s2 [H1 [H2 H3]]. cbn. split; [split; [exact H1|split; assumption]|].
    apply (hk_sched _ HK), H1.
  Qed.
  Lemma Wr_nbcast s1 s2 : Wr s1 s2 -> nbcast (tr s1) = nbcast (tr s2).
  Proof.
    intros [_ [H _]]. rewrite <- (nbcast_calls (tr s1)), <- (nbcast_calls (tr s2)), H. reflexivity.
  Qed.
  Lemma bl_mpi_bcast m : blind (mpi_bcast m).
  Proof.
    intros s1 s2 H. pose proof (Wr_nbcast _ _ H) as Hn. destruct H as [H1 [H2 H3]].
    unfold mpi_bcast. rewrite Hn. cbn. split; [|reflexivity].
    split; [exact H1|]. cbn. split; [|exact H3]. rewrite !calls_app, H2. reflexivity.
  Qed.
  Lemma bl_mpi_allreduce m f : blind (mpi_allreduce m f).
  Proof.
    intros s1 s2 H. pose proof (Wr_nbcast _ _ H) as Hn. destruct H as [H1 [H2 H3]].
    unfold mpi_allreduce. rewrite Hn. cbn. split; [|reflexivity].
    split; [exact H1|]. cbn. split; [|exact H3]. rewrite !calls_app, H2. reflexivity.
  Qed.
  Lemma bl_set_arg m : blind (set_arg m).
  Proof.
    intros s1 s2 [H1 [H2 H3]]. cbn. split; [|reflexivity].
    split; [exact H1|split; [exact H2|reflexivity]].
  Qed.
  Lemma bl_mapM {A B} (f : A -> M B) l : (forall a, blind (f a)) -> blind (mapM f l).
  Proof. intros H. apply rel_mapM. intros a _. apply H. Qed.

  (** *** One of them may end early *)
  Definition obs {A B} (m1 : M A) (m2 : M B) (Q : A -> B -> Prop) : Prop :=
    forall s1 s2, Wr s1 s2 ->
      match fst (m1 s1) with
      | inl a => exists b, fst (m2 s2) = inl b /\ Q a b /\ Wr (snd (m1 s1)) (snd (m2 s2))
      | inr e =>
          (fst (m2 s2) = inr e /\ Wr (snd (m1 s1)) (snd (m2 s2))) \/
          (X e /\ exists rest, calls (tr (snd (m2 s2))) = calls (tr (snd (m1 s1))) ++ rest)
      end.

  Lemma obs_rel {A B} (m1 : M A) (m2 : M B) Q : rel Wr m1 m2 Q -> obs m1 m2 Q.
  Proof.
    intros H s1 s2 HR. destruct (H s1 s2 HR) as [H1 H2].
    destruct (fst (m1 s1)) as [a|e], (fst (m2 s2)) as [b|e']; try contradiction.
    - exists b. auto.
    - left. subst e'. auto.
  Qed.
  Lemma obs_bind_rel {A B A' B'} (m1 : M A) (m2 : M B) (k1 : A -> M A') (k2 : B -> M B') Q Q' :
    rel Wr m1 m2 Q -> (forall a b, Q a b -> obs (k1 a) (k2 b) Q') ->
    obs (bind m1 k1) (bind m2 k2) Q'.
  Proof.
    intros H Hk s1 s2 HR. unfold bind. specialize (H s1 s2 HR).
    destruct (m1 s1) as [[a|e] t1], (m2 s2) as [[b|e'] t2]; cbn in H; destruct H as [HR' H];
      try contradiction.
    - apply Hk; auto.
    - cbn. left. subst e'. auto.
  Qed.
  Lemma obs_bind {A B A' B'} (m1 : M A) (m2 : M B) (k1 : A -> M A') (k2 : B -> M B') Q Q' :
    obs m1 m2 Q -> (forall a b, Q a b -> obs (k1 a) (k2 b) Q') -> (forall b, disc (k2 b)) ->
    obs (bind m1 k1) (bind m2 k2) Q'.
  Proof.
    intros H Hk Hd s1 s2 HR. unfold bind. specialize (H s1 s2 HR).
    destruct (m1 s1) as [[a|e] t1]; cbn in H.
    - destruct H as [b [Hb [HQ HR']]]. destruct (m2 s2) as [r t2]. cbn in *. subst r.
      apply Hk; auto.
    - cbn. destruct H as [[He HR']|[He [rest Hr]]].
      + destruct (m2 s2) as [r t2]. cbn in *. subst r. cbn. auto.
      + right. split; [exact He|]. destruct (m2 s2) as [[b|e'] t2]; cbn in *.
        * destruct (Hd b t2) as (evs & Ht & _). exists (rest ++ calls evs).
          rewrite Ht, calls_app, Hr, app_assoc. reflexivity.
        * exists rest. exact Hr.
  Qed.
  Lemma obs_bind_bl {A A' B'} (m : M A) (k1 : A -> M A') (k2 : A -> M B') Q' :
    blind m -> (forall a, obs (k1 a) (k2 a) Q') -> obs (bind m k1) (bind m k2) Q'.
  Proof. intros H Hk. eapply obs_bind_rel; [exact H|]. intros a b <-. apply Hk. Qed.
  Lemma rel_bind_bl {A A' B'} (m : M A) (k1 : A -> M A') (k2 : A -> M B') Q' :
    blind m -> (forall a, rel Wr (k1 a) (k2 a) Q') -> rel Wr (bind m k1) (bind m k2) Q'.
  Proof. intros H Hk. eapply rel_bind; [exact H|]. intros a b <-. apply Hk. Qed.
  Lemma obs_conseq {A B} (m1 : M A) (m2 : M B) (Q Q' : A -> B -> Prop) :
    obs m1 m2 Q -> (forall a b, Q a b -> Q' a b) -> obs m1 m2 Q'.
  Proof.
    intros H HQ s1 s2 HR. specialize (H s1 s2 HR). destruct (fst (m1 s1)) as [a|e]; [|exact H].
    destruct H as [b [H1 [H2 H3]]]. exists b. auto.
  Qed.

  Lemma obs_call_cb p st : (forall n, X (UserError n)) -> obs (call_cb p st) (ret tt) eq.
  Proof.
    intros HX s1 s2 [H1 [H2 H3]]. unfold call_cb.
    pose proof (hk_cb _ HK p st _ _ H1) as Hw.
    destruct (e_cb p st (rs s1)) as [[n|] w]; cbn in *.
    - right. split; [apply HX|]. exists []. rewrite calls_cb, H2, app_nil_r. reflexivity.
    - exists tt. split; [reflexivity|]. split; [reflexivity|]. split; [exact Hw|]. cbn.
      split; [|exact H3]. rewrite calls_cb. exact H2.
  Qed.
  Lemma obs_call_scb p st : (forall n, X (UserError n)) -> obs (call_scb p st) (ret tt) eq.
  Proof.
    intros HX s1 s2 [H1 [H2 H3]]. unfold call_scb.
    pose proof (hk_scb _ HK p st _ _ H1) as Hw.
    destruct (e_scb p st (rs s1)) as [[n|] w]; cbn in *.
    - right. split; [apply HX|]. exists []. rewrite calls_scb, H2, app_nil_r. reflexivity.
    - exists tt. split; [reflexivity|]. split; [reflexivity|]. split; [exact Hw|]. cbn.
      split; [|exact H3]. rewrite calls_scb. exact H2.
  Qed.
  Lemma obs_when c m :
    (c = true -> obs m (ret tt) eq) -> obs (when c m) (when false (ret tt)) eq.
  Proof. intros H. destruct c; cbn; [apply H; reflexivity|]. apply obs_rel, bl_ret. Qed.

  (** A computation that touches nothing and raises only own exceptions. *)
  Lemma obs_pure {A B} (m : M A) (b : B) (Q : A -> B -> Prop) :
    (forall s, snd (m s) = s /\ match fst (m s) with inl a => Q a b | inr e => X e end) ->
    obs m (ret b) Q.
  Proof.
    intros H s1 s2 HR. destruct (H s1) as [H1 H2]. rewrite H1.
    destruct (fst (m s1)) as [a|e].
    - exists b. auto.
    - right. split; [exact H2|]. exists []. rewrite app_nil_r. cbn. symmetry. apply HR.
  Qed.
End Watch.

Create HintDb blind.
Ltac bl := repeat first
  [ apply bl_ret | apply rel_raise | (apply bl_draw; assumption) | (apply bl_call_fun; assumption)
  | (apply bl_seed; assumption) | apply bl_mpi_bcast | apply bl_mpi_allreduce | apply bl_set_arg
  | (apply bl_get_sched; assumption)
  | apply rel_when | apply rel_raise_if | apply rel_orelse | apply rel_np_argmin
  | solve [auto 2 with blind nocore]
  | apply bl_bind; [|intro]
  | apply rel_replicateM | (apply bl_mapM; intro) | (apply rel_foldM; intro; intro)
  | match goal with
    | |- rel _ (let _ := _ in _) _ _ => cbn zeta
    | |- rel _ (match ?x with _ => _ end) _ _ => destruct x
    end ].

Section Parts.
  Context {N : Num} {E : Env N}.
  Variable K : RNG * US -> RNG * US -> Prop.
  Hypothesis HK : Harmless K.
  Notation blind m := (rel (Wr K) m m eq).

  Lemma bl_eval_kindM sync w b : blind (eval_kindM sync w b).
  Proof. unfold eval_kindM. bl. Qed.
  Lemma bl_eval_pop m X : blind (eval_pop m X).
  Proof. unfold eval_pop, eval_serial, eval_joblib, eval_mpi. bl. Qed.
  Lemma bl_uniform lo hi : blind (uniform lo hi).
  Proof. unfold uniform, rand. bl. Qed.
  Hint Resolve bl_uniform bl_eval_pop bl_eval_kindM : blind.
  Lemma bl_uniform_vec lo hi : blind (uniform_vec lo hi).
  Proof. unfold uniform_vec, urange, uniform_row. bl. Qed.
  Lemma bl_uniform1 lo hi : blind (uniform1 lo hi).
  Proof. unfold uniform1, urange. bl. Qed.
  Lemma bl_uniform_mat p lo hi : blind (uniform_mat p lo hi).
  Proof. unfold uniform_mat, urange, uniform_row. bl. Qed.
  Hint Resolve bl_uniform1 bl_uniform_mat : blind.
  Lemma bl_rand_mat p d : blind (rand_mat p d).
  Proof. unfold rand_mat, rand. bl. Qed.
  Lemma bl_randn_vec d : blind (randn_vec d).
  Proof. unfold randn_vec, randn. bl. Qed.
  Hint Resolve bl_uniform_vec bl_rand_mat bl_randn_vec : blind.
  Lemma bl_lhs p d lo hi : blind (lhs p d lo hi).
  Proof. unfold lhs, perm. bl. Qed.
  Lemma bl_selection_async c xb xbf x xf xt ft i : blind (selection_async c xb xbf x xf xt ft i).
  Proof. unfold selection_async. bl. Qed.
  Lemma bl_selection_sync it c xb x xf mx xt ft ev :
    (forall X, blind (ev X)) -> blind (selection_sync it c xb x xf mx xt ft ev).
  Proof. intros H. unfold selection_sync. apply bl_bind; [apply H|intro]. bl. Qed.
  Lemma bl_unpack_bounds b : blind (unpack_bounds b).
  Proof. unfold unpack_bounds. bl. Qed.
  Lemma bl_check_updating u : blind (check_updating u).
  Proof. unfold check_updating. bl. Qed.
  Lemma bl_delete_shuffle p i : blind (delete_shuffle p i).
  Proof. unfold delete_shuffle, perm. bl. Qed.
  Lemma bl_np_randint n : blind (np_randint n).
  Proof. unfold np_randint, randint. bl. Qed.
  Lemma bl_de_cons c lo hi u : blind (de_cons c lo hi u).
  Proof. unfold de_cons. bl. Qed.
  Hint Resolve bl_lhs bl_selection_async bl_unpack_bounds bl_check_updating
    bl_delete_shuffle bl_np_randint bl_de_cons : blind.
  Lemma bl_de_cands P r1 X g : blind (de_cands P r1 X g).
  Proof. unfold de_cands. bl. Qed.
  Lemma bl_de_cand1 P r1 i X g : blind (de_cand1 P r1 i X g).
  Proof. unfold de_cand1. bl. Qed.
  Lemma bl_na_axis d mask xk U acc j : blind (na_axis d mask xk U acc j).
  Proof. unfold na_axis. bl. Qed.
  Lemma bl_na_eval P X : blind (na_eval P X).
  Proof. unfold na_eval. bl. Qed.
  Hint Resolve bl_na_axis : blind.
  Lemma bl_na_mutation P X f : blind (na_mutation P X f).
  Proof. unfold na_mutation, na_one. bl. Qed.
  Lemma bl_cma_eval P X : blind (cma_eval P X).
  Proof. unfold cma_eval. bl. Qed.
  Hint Resolve bl_cma_eval : blind.
  Lemma bl_cma_fitness P arx xm xo sg dc it pen : blind (cma_fitness P arx xm xo sg dc it pen).
  Proof. unfold cma_fitness, penalize. bl. Qed.
  Lemma bl_hist_set P it v h : blind (hist_set P it v h).
  Proof. unfold hist_set. bl. Qed.
  Lemma bl_cma_sample P s : blind (cma_sample P s).
  Proof. unfold cma_sample. bl. Qed.
  Lemma bl_vd_sample P s : blind (vd_sample P s).
  Proof. unfold vd_sample. bl. Qed.
  Lemma bl_cma_cons_check c : blind (cma_cons_check c).
  Proof. unfold cma_cons_check. bl. Qed.
  Lemma bl_s_steps a lo hi : blind (s_steps a lo hi).
  Proof. unfold s_steps. cbn zeta. bl. Qed.
  Lemma bl_s_first a lo hi : blind (s_first a lo hi).
  Proof. unfold s_first. bl. Qed.
  Lemma bl_s_check_x0 a : blind (s_check_x0 a).
  Proof. unfold s_check_x0. bl. Qed.
  Lemma bl_mc_propose P j x : blind (mc_propose P j x).
  Proof. unfold mc_propose. bl. Qed.
  Lemma bl_count_fun nf x : blind (count_fun nf x).
  Proof. unfold count_fun. bl. Qed.
  Hint Resolve bl_count_fun : blind.
  Lemma bl_hmc_jac j h nf q : blind (hmc_jac j h nf q).
  Proof. unfold hmc_jac, numerical_gradient, ng_one. bl. Qed.
  Hint Resolve bl_hmc_jac : blind.
  Lemma bl_leap_loop j h step n q p nf : blind (leap_loop (hmc_jac j h) step n q p nf).
  Proof. revert q p nf; induction n as [|k IH]; intros q p nf; cbn [leap_loop]; bl. Qed.
  Hint Resolve bl_leap_loop : blind.
  Lemma bl_leapfrog j h step n q p nf : blind (leapfrog (hmc_jac j h) step n q p nf).
  Proof. unfold leapfrog. bl. Qed.
End Parts.

Section Record_.
  Context {N : Num} {E : Env N}.
  Variable K : RNG * US -> RNG * US -> Prop.
  Hypothesis HK : Harmless K.
  Variables (ra : bool) (cb : CbArg).
  Notation X := (own ra cb).

  Lemma own_rec : ra = true -> X ValueError /\ X IndexError.
  Proof. unfold own. intros ->. split; right; left; auto. Qed.

  Lemma obs_rec_alloc v v' p mi :
    obs K X (rec_alloc ra v p mi) (rec_alloc false v' p mi)
        (fun a b => b = None /\ (a <> None -> ra = true)).
  Proof.
    apply (obs_pure K X). intros s. unfold rec_alloc, rec_nout, orelse. destruct ra eqn:Hr.
    - cbn. destruct (nceilZ (v * nZ p)%num) as [z|]; cbn.
      + destruct (mi <? 0)%Z; cbn; auto. split; [reflexivity|]. right; left. auto.
      + split; [reflexivity|]. right; left. unfold int_exn. destruct (_ =? _)%num; auto.
    - cbn. split; [reflexivity|]. split; [reflexivity|congruence].
  Qed.
  Lemma obs_rec_write n mi it pop pf best r mi' it' pop' pf' best' :
    (n <> None -> ra = true) ->
    obs K X (rec_write n mi it pop pf best r) (rec_write None mi' it' pop' pf' best' None)
        (fun _ b => b = None).
  Proof.
    intros Hn. apply (obs_pure K X). intros s.
    unfold rec_write. destruct n as [n|]; [|cbn; auto]. destruct r as [r|]; [|cbn; auto].
    destruct (own_rec (Hn ltac:(discriminate))) as [HV HI].
    unfold rec_put, bind, orelse. destruct (mi <? it)%Z; [cbn; auto|].
    destruct (0 <? n)%Z; [|cbn; auto].
    destruct (fit_rows _ (firstn _ pop)); [|cbn; auto]. cbn.
    destruct (fit_rows _ (firstn _ pf)); cbn; auto.
  Qed.
  Lemma obs_has_cb a p st :
    a_callback a = cb -> obs K X (when (has_cb a) (call_cb p st)) (ret tt) eq.
  Proof.
    intros Ha. unfold has_cb. rewrite Ha. destruct cb eqn:Hc; cbn;
      try (apply obs_rel; apply bl_ret).
    apply obs_call_cb; [exact HK|]. intros n. left. eauto.
  Qed.
  Lemma obs_seed_and_cb a b :
    a_callback a = cb -> a_callback b = CbNone -> a_seed a = a_seed b ->
    obs K X (seed_and_cb a) (seed_and_cb b) eq.
  Proof.
    intros H1 H2 H3. unfold seed_and_cb. rewrite H1, H2, H3.
    apply obs_bind_bl; [apply bl_seed, HK|]. intros _. destruct cb eqn:Hc.
    - apply obs_rel, bl_ret.
    - apply (obs_pure K). intros s. cbn. split; [reflexivity|]. right; right. auto.
    - apply obs_rel, bl_ret.
  Qed.

  Lemma obs_drive {S} (d1 d2 : Drv S) (strip : S -> S) b :
    (b = true -> cb = CbFun) ->
    (forall it a, obs K X (d_step d1 it a) (d_step d2 it (strip a))
                      (fun p q => q = (strip (fst p), snd p))) ->
    (forall it a, rel (Wr K) (d_post d1 it a) (d_post d2 it (strip a)) (fun u v => v = strip u)) ->
    (forall a, d_x d2 (strip a) = d_x d1 a /\ d_fun d2 (strip a) = d_fun d1 a /\
               forall it, d_nfev d2 it (strip a) = d_nfev d1 it a) ->
    (forall it a, disc (d_step d2 it a)) -> (forall it a, disc (d_post d2 it a)) ->
    forall n it a, obs K X (drive d1 b n it a) (drive d2 false n it (strip a)) same_res.
  Proof.
    intros Hb HS HP HV D1 D2. induction n as [|n IH]; intros it a; cbn [drive].
    { apply obs_rel, rel_raise. }
    cbn zeta. eapply obs_bind; [apply HS| |].
    - intros [a' c] q ->. cbn [fst snd].
      eapply obs_bind with (Q := eq).
      + destruct b; [|apply obs_rel, bl_ret]. apply obs_call_cb; [exact HK|].
        intros m. left. eauto.
      + intros _ _ _. destruct c as [c|].
        * unfold result. apply obs_bind_bl; [apply rel_orelse|]. intros m. apply obs_rel, rel_ret.
          destruct (HV a') as [V1 [V2 V3]]. unfold same_res. cbn. rewrite V1, V2, V3. auto 10.
        * eapply obs_bind_rel; [apply HP|]. intros u v ->. apply IH.
      + intros _. destruct c as [c|].
        * unfold result. d1.
        * apply disc_bind; [apply D2|]. intros. apply disc_drive; auto.
    - intros [a' c]. apply disc_bind; [d1|]. intros _. destruct c as [c|].
      + unfold result. d1.
      + apply disc_bind; [apply D2|]. intros. apply disc_drive; auto.
  Qed.
End Record_.

#[local] Hint Resolve disc_uniform disc_eval_pop disc_np_argmin disc_eval_kindM disc_uniform_vec
  disc_rand_mat disc_randn_vec disc_lhs disc_rec_write disc_rec_alloc disc_unpack_bounds
  disc_na_eval disc_cma_setup disc_cma_alloc disc_s_check_x0 disc_s_steps disc_s_seed_cb
  disc_s_first disc_s_first_cb disc_s_cb disc_mc_move disc_count_fun disc_hmc_move : disc.

Section Bodies.
  Context {N : Num} {E : Env N}.
  Lemma disc_de_body a sync F CR st : disc (de a sync F CR st).
  Proof.
    unfold de. d1. apply disc_drive; intros; cbn [d_step d_post de_drv];
      [apply disc_de_step|apply disc_ret].
  Qed.
  Lemma disc_cpso_body a sync w c1 c2 g : disc (cpso a sync w c1 c2 g).
  Proof.
    unfold cpso. d1. apply disc_drive; intros; cbn [d_step d_post pso_drv];
      [apply disc_pso_step|apply disc_pso_post].
  Qed.
  Lemma disc_na_body a r : disc (na a r).
  Proof.
    unfold na. d1. apply disc_drive; intros; cbn [d_step d_post na_drv];
      [apply disc_na_step|apply disc_ret].
  Qed.
  Lemma disc_cmaes_body A : disc (cmaes A).
  Proof.
    unfold cmaes. d1. apply disc_drive; intros; cbn [d_step d_post cma_drv];
      [apply disc_cma_step|apply disc_ret].
  Qed.
  Lemma disc_vdcma_body A : disc (vdcma A).
  Proof.
    unfold vdcma. d1. apply disc_drive; intros; cbn [d_step d_post vd_drv];
      [apply disc_vd_step|apply disc_ret].
  Qed.
End Bodies.

(** ** The optimizers *)

Section Opt.
  Context {N : Num} {E : Env N}.
  Variable K : RNG * US -> RNG * US -> Prop.
  Hypothesis HK : Harmless K.
  Variables (ra : bool) (v v' : T) (cb : CbArg).
  Notation X := (own ra cb).

  Lemma cb_fun a : has_cb (watched ra v cb a) = true -> cb = CbFun.
  Proof. unfold has_cb. cbn. destruct cb; congruence. Qed.

  Lemma obs_start {A} (m : M A) (m' : M A) a p st p' st' Q :
    obs K X m m' Q -> disc m' ->
    obs K X (when (has_cb (watched ra v cb a)) (call_cb p st) ;;; m)
            (when (has_cb (watched false v' CbNone a)) (call_cb p' st') ;;; m') Q.
  Proof.
    intros H Hd. eapply obs_bind with (Q := eq).
    - exact (obs_has_cb K HK ra cb (watched ra v cb a) p st eq_refl).
    - intros _ _ _. exact H.
    - intros _. exact Hd.
  Qed.

  (** *** de *)
  Definition de_bare (P : DEParams) : DEParams :=
    mkDEParams (de_F P) (de_CR P) (de_strat P) (de_con P) (de_p P) (de_d P) (de_lower P)
               (de_upper P) (de_maxiter P) (de_xtol P) (de_ftol P) (de_mode P) None (de_alias P)
               (de_list P).
  Definition des_bare (s : DES) : DES :=
    mkDES (des_X s) (des_gbest s) (des_pbestfit s) (des_gfit s) (des_pfit s) None.

  Lemma rel_de_sync P it r1 s :
    rel (Wr K) (de_sync P it r1 s) (de_sync (de_bare P) it r1 (des_bare s))
        (fun p q => q = (des_bare (fst p), snd p)).
  Proof.
    unfold de_sync. eapply rel_bind; [exact (bl_de_cands K HK P r1 _ _)|]. intros U ? <-.
    eapply rel_bind.
    { apply (bl_selection_sync K). intros; apply (bl_eval_pop K HK). }
    intros sel ? <-. eapply rel_bind with (Q := eq).
    { apply rel_when, bl_set_arg. }
    intros _ _ _. apply rel_ret. reflexivity.
  Qed.
  Lemma rel_de_async P it r1 s :
    rel (Wr K) (de_async P it r1 s) (de_async (de_bare P) it r1 (des_bare s))
        (fun p q => q = (des_bare (fst p), snd p)).
  Proof.
    unfold de_async. eapply rel_bind with (Q := fun p q => q = (des_bare (fst p), snd p)).
    - change (@None Z) with (snd (s, @None Z)) at 2.
      change (des_bare s) with (des_bare (fst (s, @None Z))).
      generalize (s, @None Z). cbn [de_p de_bare]. induction (seq 0 (de_p P)) as [|i l IH]; intros acc.
      + cbn. apply rel_ret. reflexivity.
      + cbn [foldM]. eapply rel_bind with (Q := fun p q => q = (des_bare (fst p), snd p)).
        * unfold de_async_one. cbn [fst].
          eapply rel_bind; [exact (bl_de_cand1 K HK P _ i _ _)|]. intros u ? <-.
          eapply rel_bind; [apply (bl_selection_async K HK)|]. intros sel ? <-.
          eapply rel_bind with (Q := eq); [apply rel_when, bl_set_arg|].
          intros _ _ _. apply rel_ret. reflexivity.
        * intros a b ->. apply IH.
    - intros [a c] b ->. cbn [fst snd]. apply rel_ret. reflexivity.
  Qed.
  Lemma obs_de_step P sync it s : (de_nout P <> None -> ra = true) ->
    obs K X (de_step P sync it s) (de_step (de_bare P) sync it (des_bare s))
        (fun p q => q = (des_bare (fst p), snd p)).
  Proof.
    intros Hn. unfold de_step. eapply obs_bind_rel; [exact (bl_rand_mat K HK _ _)|]. intros r1 ? <-.
    eapply obs_bind_rel; [apply rel_raise_if|]. intros _ _ _.
    eapply obs_bind_rel with (Q := fun p q => q = (des_bare (fst p), snd p)).
    { destruct sync; [apply rel_de_sync|apply rel_de_async]. }
    intros [s' c] q ->. cbn [fst snd]. eapply obs_bind.
    - apply obs_rec_write. exact Hn.
    - intros r ? ->. apply obs_rel, rel_ret. reflexivity.
    - intros r. apply disc_ret.
  Qed.

  Lemma obs_check_pop a : obs K X (check_pop (watched ra v cb a)) (check_pop (watched false v' CbNone a)) eq.
  Proof. apply obs_rel. apply rel_check_pop; reflexivity. Qed.

  Lemma obs_de a sync F CR st :
    obs K X (de (watched ra v cb a) sync F CR st) (de (watched false v' CbNone a) sync F CR st)
        same_res.
  Proof.
    unfold de.
    eapply obs_bind_rel; [exact (bl_eval_kindM K _ _ _)|]. intros mode ? <-. cbn zeta.
    eapply obs_bind_rel; [exact (bl_unpack_bounds K _)|]. intros [lower upper] ? <-.
    eapply obs_bind_rel; [exact (rel_orelse _ _ _)|]. intros con ? <-.
    eapply obs_bind_rel with (Q := eq).
    { cbn [a_x0 watched]. destruct (a_x0 a); [apply bl_ret|apply (bl_lhs K HK)]. }
    intros X0 ? <-.
    eapply obs_bind_rel; [exact (rel_raise_if _ _ _)|]. intros _ _ _.
    eapply obs_bind_rel; [exact (bl_eval_pop K HK _ _)|]. intros [X1 pfit] ? <-.
    eapply obs_bind_rel with (Q := eq); [apply rel_when, bl_set_arg|]. intros _ _ _.
    eapply obs_bind_rel; [exact (rel_np_argmin _ _)|]. intros gb ? <-.
    assert (Hdrv : forall P s it, disc (drive (de_drv P sync) false (fuel (a_maxiter a)) it s)).
    { intros. apply disc_drive; intros; cbn [d_step d_post de_drv];
        [apply disc_de_step|apply disc_ret]. }
    eapply obs_bind; [apply obs_rec_alloc| |].
    - intros nout ? [-> Hn]. eapply obs_bind; [apply obs_rec_write; exact Hn| |].
      + intros r ? ->. apply obs_start; [|apply Hdrv].
        match goal with |- obs _ _ (drive (de_drv ?P _) _ _ _ ?s) _ _ =>
          apply (obs_drive K HK ra cb (de_drv P sync) (de_drv (de_bare P) sync) des_bare) end.
        * apply cb_fun.
        * intros. apply obs_de_step. exact Hn.
        * intros. apply rel_ret. reflexivity.
        * intros. repeat split.
        * intros. apply disc_de_step.
        * intros. apply disc_ret.
      + intros. apply disc_bind; [apply disc_ret|]. intros. apply Hdrv.
    - intros nout. apply disc_bind; [apply disc_rec_write|]. intros r.
      apply disc_bind; [apply disc_ret|]. intros. apply Hdrv.
  Qed.

  Theorem obs_de_minimize A :
    obs K X (de_minimize (mkDEArgs (watched ra v cb (dea A)) (dea_mutation A) (dea_recombination A)
                                   (dea_strategy A) (dea_updating A)))
            (de_minimize (mkDEArgs (watched false v' CbNone (dea A)) (dea_mutation A)
                                   (dea_recombination A) (dea_strategy A) (dea_updating A)))
        same_res.
  Proof.
    unfold de_minimize. cbn zeta. cbn [dea dea_mutation dea_recombination dea_strategy dea_updating].
    eapply obs_bind_rel with (Q := eq); [apply rel_check_pop; reflexivity|]. intros _ _ _.
    eapply obs_bind_rel; [apply rel_raise_if|]. intros _ _ _.
    eapply obs_bind_rel; [apply rel_raise_if|]. intros _ _ _.
    eapply obs_bind_rel; [apply rel_check_updating|]. intros _ _ _.
    eapply obs_bind_rel; [apply rel_orelse|]. intros st ? <-.
    eapply obs_bind; [apply (obs_seed_and_cb K HK); reflexivity| |].
    - intros _ _ _. apply obs_de.
    - intros _. pose proof (disc_de_body (watched false v' CbNone (dea A))) as H. apply H.
  Qed.

  (** *** cpso, pso *)
  Definition ps_bare (P : PSOParams) : PSOParams :=
    mkPSOParams (ps_w P) (ps_c1 P) (ps_c2 P) (ps_con P) (ps_gamma P) (ps_delta P) (ps_p P) (ps_d P)
                (ps_lower P) (ps_upper P) (ps_maxiter P) (ps_xtol P) (ps_ftol P) (ps_mode P) None
                (ps_alias P) (ps_list P).
  Definition pss_bare (s : PSOS) : PSOS :=
    mkPSOS (pss_X s) (pss_V s) (pss_pbest s) (pss_gbest s) (pss_pbestfit s) (pss_gfit s)
           (pss_pfit s) None.

  Lemma rel_pso_sync P it r1 r2 s :
    rel (Wr K) (pso_sync P it r1 r2 s) (pso_sync (ps_bare P) it r1 r2 (pss_bare s))
        (fun p q => q = (pss_bare (fst p), snd p)).
  Proof.
    unfold pso_sync. eapply rel_bind; [apply rel_raise_if|]. intros _ _ _. cbn zeta.
    change (pso_moves (ps_bare P) r1 r2 (pss_bare s)) with (pso_moves P r1 r2 s).
    eapply rel_bind.
    { apply (bl_selection_sync K). intros; apply (bl_eval_pop K HK). }
    intros sel ? <-. apply rel_ret. reflexivity.
  Qed.
  Lemma rel_pso_async P it r1 r2 s :
    rel (Wr K) (pso_async P it r1 r2 s) (pso_async (ps_bare P) it r1 r2 (pss_bare s))
        (fun p q => q = (pss_bare (fst p), snd p)).
  Proof.
    unfold pso_async. eapply rel_bind with (Q := fun p q => q = (pss_bare (fst p), snd p)).
    - change (@None Z) with (snd (s, @None Z)) at 2.
      change (pss_bare s) with (pss_bare (fst (s, @None Z))).
      generalize (s, @None Z). cbn [ps_p ps_bare]. induction (seq 0 (ps_p P)) as [|i l IH]; intros acc.
      + cbn. apply rel_ret. reflexivity.
      + cbn [foldM]. eapply rel_bind with (Q := fun p q => q = (pss_bare (fst p), snd p)).
        * unfold pso_async_one. cbn [fst]. cbn zeta.
          change (pso_mutation (ps_bare P)) with (pso_mutation P).
          cbn [pss_bare pss_X pss_V pss_pbest pss_gbest pss_pbestfit pss_gfit pss_pfit pss_rec].
          eapply rel_bind with (Q := eq); [apply rel_when, bl_set_arg|]. intros _ _ _.
          eapply rel_bind; [apply (bl_selection_async K HK)|]. intros sel ? <-.
          apply rel_ret. reflexivity.
        * intros a b ->. apply IH.
    - intros [a c] b ->. cbn [fst snd]. apply rel_ret. reflexivity.
  Qed.
  Lemma obs_pso_step P sync it s : (ps_nout P <> None -> ra = true) ->
    obs K X (pso_step P sync it s) (pso_step (ps_bare P) sync it (pss_bare s))
        (fun p q => q = (pss_bare (fst p), snd p)).
  Proof.
    intros Hn. unfold pso_step.
    eapply obs_bind_rel; [exact (bl_rand_mat K HK _ _)|]. intros r1 ? <-.
    eapply obs_bind_rel; [exact (bl_rand_mat K HK _ _)|]. intros r2 ? <-.
    eapply obs_bind_rel with (Q := fun p q => q = (pss_bare (fst p), snd p)).
    { destruct sync; [apply rel_pso_sync|apply rel_pso_async]. }
    intros [s' c] q ->. cbn [fst snd]. eapply obs_bind.
    - apply obs_rec_write. exact Hn.
    - intros r ? ->. apply obs_rel, rel_ret. reflexivity.
    - intros r. apply disc_ret.
  Qed.
  Lemma rel_pso_post P it s :
    rel (Wr K) (pso_post P it s) (pso_post (ps_bare P) it (pss_bare s)) (fun u w => w = pss_bare u).
  Proof.
    unfold pso_post. cbn [ps_gamma ps_bare]. destruct (ps_gamma P) as [g|]; [|apply rel_ret; reflexivity].
    unfold restart. cbn [pss_bare ps_bare ps_d ps_delta ps_maxiter ps_p ps_lower ps_upper
      pss_X pss_V pss_pbest pss_gbest pss_pbestfit pss_gfit pss_pfit pss_rec].
    match goal with |- rel _ (if ?b then _ else _) _ _ => destruct b end; [|apply rel_ret; reflexivity].
    eapply rel_bind; [apply rel_raise_if|]. intros _ _ _.
    eapply rel_bind; [apply rel_orelse|]. intros nw ? <-.
    destruct (0 <? nw)%Z; [|apply rel_ret; reflexivity]. cbn zeta.
    eapply rel_bind.
    { apply (bl_uniform_mat K HK). }
    intros rows ? <-. eapply rel_bind with (Q := eq); [apply rel_when, bl_set_arg|].
    intros _ _ _. apply rel_ret. reflexivity.
  Qed.

  Lemma obs_cpso a sync w c1 c2 g :
    obs K X (cpso (watched ra v cb a) sync w c1 c2 g) (cpso (watched false v' CbNone a) sync w c1 c2 g)
        same_res.
  Proof.
    unfold cpso.
    eapply obs_bind_rel; [exact (bl_eval_kindM K _ _ _)|]. intros mode ? <-. cbn zeta.
    eapply obs_bind_rel; [exact (bl_unpack_bounds K _)|]. intros [lower upper] ? <-.
    eapply obs_bind_rel; [exact (rel_orelse _ _ _)|]. intros con ? <-.
    eapply obs_bind_rel with (Q := eq).
    { cbn [a_x0 watched]. destruct (a_x0 a); [apply bl_ret|apply (bl_lhs K HK)]. }
    intros X0 ? <-.
    eapply obs_bind_rel; [exact (rel_raise_if _ _ _)|]. intros _ _ _.
    eapply obs_bind_rel; [exact (bl_eval_pop K HK _ _)|]. intros [X1 pfit] ? <-.
    eapply obs_bind_rel with (Q := eq); [apply rel_when, bl_set_arg|]. intros _ _ _.
    eapply obs_bind_rel; [exact (rel_np_argmin _ _)|]. intros gb ? <-.
    assert (Hdrv : forall P s it, disc (drive (pso_drv P sync) false (fuel (a_maxiter a)) it s)).
    { intros. apply disc_drive; intros; cbn [d_step d_post pso_drv];
        [apply disc_pso_step|apply disc_pso_post]. }
    eapply obs_bind; [apply obs_rec_alloc| |].
    - intros nout ? [-> Hn]. eapply obs_bind; [apply obs_rec_write; exact Hn| |].
      + intros r ? ->. apply obs_start; [|apply Hdrv].
        match goal with |- obs _ _ (drive (pso_drv ?P _) _ _ _ ?s) _ _ =>
          apply (obs_drive K HK ra cb (pso_drv P sync) (pso_drv (ps_bare P) sync) pss_bare) end.
        * apply cb_fun.
        * intros. apply obs_pso_step. exact Hn.
        * intros. apply rel_pso_post.
        * intros. repeat split.
        * intros. apply disc_pso_step.
        * intros. apply disc_pso_post.
      + intros. apply disc_bind; [apply disc_ret|]. intros. apply Hdrv.
    - intros nout. apply disc_bind; [apply disc_rec_write|]. intros r.
      apply disc_bind; [apply disc_ret|]. intros. apply Hdrv.
  Qed.

  Theorem obs_cpso_minimize A :
    obs K X (cpso_minimize (mkCPSOArgs (watched ra v cb (pa A)) (pa_inertia A) (pa_cognitivity A)
                                       (pa_sociability A) (pa_competitivity A) (pa_updating A)))
            (cpso_minimize (mkCPSOArgs (watched false v' CbNone (pa A)) (pa_inertia A)
                                       (pa_cognitivity A) (pa_sociability A) (pa_competitivity A)
                                       (pa_updating A)))
        same_res.
  Proof.
    unfold cpso_minimize. cbn zeta.
    cbn [pa pa_inertia pa_cognitivity pa_sociability pa_competitivity pa_updating].
    eapply obs_bind_rel with (Q := eq); [apply rel_check_pop; reflexivity|]. intros _ _ _.
    do 4 (eapply obs_bind_rel; [apply rel_raise_if|]; intros _ _ _).
    eapply obs_bind_rel; [apply rel_check_updating|]. intros _ _ _.
    eapply obs_bind; [apply (obs_seed_and_cb K HK); reflexivity| |].
    - intros _ _ _. apply obs_cpso.
    - intros _. pose proof (disc_cpso_body (watched false v' CbNone (pa A))) as H. apply H.
  Qed.
  Theorem obs_pso_minimize A :
    obs K X (pso_minimize (mkPSOArgs (watched ra v cb (psa A)) (psa_inertia A) (psa_cognitivity A)
                                     (psa_sociability A) (psa_updating A)))
            (pso_minimize (mkPSOArgs (watched false v' CbNone (psa A)) (psa_inertia A)
                                     (psa_cognitivity A) (psa_sociability A) (psa_updating A)))
        same_res.
  Proof.
    exact (obs_cpso_minimize (mkCPSOArgs (psa A) (psa_inertia A) (psa_cognitivity A)
                                         (psa_sociability A) None (psa_updating A))).
  Qed.

  (** *** na *)
  Definition na_bare (P : NAParams) : NAParams :=
    mkNAParams (na_p P) (na_d P) (na_nr P) (na_lower P) (na_upper P) (na_maxiter P) (na_xtol P)
               (na_ftol P) (na_mode P) None.
  Definition nas_bare (s : NAS) : NAS :=
    mkNAS (nas_X s) (nas_pbest s) (nas_gbest s) (nas_pbestfit s) (nas_gfit s) (nas_pfit s)
          (nas_Xall s) (nas_Xallfit s) None.

  Lemma obs_na_step P it s : (na_nout P <> None -> ra = true) ->
    obs K X (na_step P it s) (na_step (na_bare P) it (nas_bare s))
        (fun p q => q = (nas_bare (fst p), snd p)).
  Proof.
    intros Hn. unfold na_step.
    eapply obs_bind_rel; [exact (bl_na_mutation K HK P _ _)|]. intros Y ? <-.
    eapply obs_bind_rel.
    { change (na_eval (na_bare P)) with (na_eval P). apply (bl_selection_sync K).
      intros; apply (bl_na_eval K HK). }
    intros sel ? <-. cbn zeta. eapply obs_bind.
    - apply obs_rec_write. exact Hn.
    - intros r ? ->. apply obs_rel, rel_ret. reflexivity.
    - intros r. apply disc_ret.
  Qed.

  Lemma obs_na a nrperc :
    obs K X (na (watched ra v cb a) nrperc) (na (watched false v' CbNone a) nrperc) same_res.
  Proof.
    unfold na.
    eapply obs_bind_rel; [exact (bl_eval_kindM K _ _ _)|]. intros mode ? <-. cbn zeta.
    eapply obs_bind_rel; [exact (bl_unpack_bounds K _)|]. intros [lower upper] ? <-.
    eapply obs_bind_rel; [exact (rel_orelse _ _ _)|]. intros nr ? <-.
    eapply obs_bind_rel with (Q := eq).
    { cbn [a_x0 watched]. destruct (a_x0 a); [apply bl_ret|apply (bl_lhs K HK)]. }
    intros X0 ? <-.
    eapply obs_bind_rel; [exact (bl_na_eval K HK _ _)|]. intros [X1 pfit] ? <-.
    eapply obs_bind_rel; [exact (rel_np_argmin _ _)|]. intros gb ? <-.
    assert (Hdrv : forall P s it, disc (drive (na_drv P) false (fuel (a_maxiter a)) it s)).
    { intros. apply disc_drive; intros; cbn [d_step d_post na_drv];
        [apply disc_na_step|apply disc_ret]. }
    eapply obs_bind; [apply obs_rec_alloc| |].
    - intros nout ? [-> Hn]. eapply obs_bind; [apply obs_rec_write; exact Hn| |].
      + intros r ? ->. apply obs_start; [|apply Hdrv].
        match goal with |- obs _ _ (drive (na_drv ?P) _ _ _ ?s) _ _ =>
          apply (obs_drive K HK ra cb (na_drv P) (na_drv (na_bare P)) nas_bare) end.
        * apply cb_fun.
        * intros. apply obs_na_step. exact Hn.
        * intros. apply rel_ret. reflexivity.
        * intros. repeat split.
        * intros. apply disc_na_step.
        * intros. apply disc_ret.
      + intros. apply disc_bind; [apply disc_ret|]. intros. apply Hdrv.
    - intros nout. apply disc_bind; [apply disc_rec_write|]. intros r.
      apply disc_bind; [apply disc_ret|]. intros. apply Hdrv.
  Qed.
  Theorem obs_na_minimize A :
    obs K X (na_minimize (mkNAArgs (watched ra v cb (naa A)) (naa_nrperc A)))
            (na_minimize (mkNAArgs (watched false v' CbNone (naa A)) (naa_nrperc A)))
        same_res.
  Proof.
    unfold na_minimize. cbn zeta. cbn [naa naa_nrperc].
    eapply obs_bind_rel with (Q := eq); [apply rel_check_pop; reflexivity|]. intros _ _ _.
    eapply obs_bind_rel; [apply rel_raise_if|]. intros _ _ _.
    eapply obs_bind; [apply (obs_seed_and_cb K HK); reflexivity| |].
    - intros _ _ _. apply obs_na.
    - intros _. pose proof (disc_na_body (watched false v' CbNone (naa A))) as H. apply H.
  Qed.

  (** *** cmaes, vdcma *)
  Definition cm_bare (P : CMAParams) : CMAParams :=
    mkCMAParams (cm_p P) (cm_d P) (cm_mu P) (cm_w P) (cm_mueff P) (cm_xm P) (cm_xstd P) (cm_pen P)
                (cm_maxiter P) (cm_xtol P) (cm_ftol P) (cm_insigma P) (cm_ilim P) (cm_mode P) None.
  Definition cs_bare (s : CMAS) : CMAS :=
    mkCMAS (cs_xmean s) (cs_xold s) (cs_pc s) (cs_ps s) (cs_B s) (cs_D s) (cs_C s) (cs_inv s)
           (cs_sigma s) (cs_pen s) (cs_nfev s) (cs_eigeneval s) (cs_hist s) (cs_valid s) (cs_fit s)
           (cs_index s) None.
  Definition vs_bare (s : VDS) : VDS :=
    mkVDS (vs_xmean s) (vs_xold s) (vs_dx s) (vs_ps s) (vs_dvec s) (vs_vvec s) (vs_nv2 s) (vs_nv s)
          (vs_vn s) (vs_vnn s) (vs_pc s) (vs_inj s) (vs_sigma s) (vs_pen s) (vs_nfev s) (vs_hist s)
          (vs_valid s) (vs_fit s) (vs_index s) None.

  Lemma obs_cma_step P it s : (cm_nout P <> None -> ra = true) ->
    obs K X (cma_step P it s) (cma_step (cm_bare P) it (cs_bare s))
        (fun p q => q = (cs_bare (fst p), snd p)).
  Proof.
    intros Hn. unfold cma_step. cbn zeta.
    eapply obs_bind_rel; [exact (bl_cma_sample K HK P s)|]. intros arx ? <-.
    eapply obs_bind_rel; [exact (bl_cma_fitness K HK P arx _ _ _ _ _ _)|].
    intros [[fit valid] pen] ? <-. eapply obs_bind.
    - unfold cma_record. apply obs_rec_write. exact Hn.
    - intros r ? ->.
      eapply obs_bind_rel; [exact (bl_hist_set K P _ _ _)|]. intros hist ? <-.
      eapply obs_bind_rel with (Q := eq).
      { cbn [cm_p cm_d cm_mueff cm_bare cs_bare cs_nfev cs_eigeneval cs_B cs_D cs_inv].
        match goal with |- rel _ ?m ?m' _ => change m' with m end.
        match goal with |- rel _ (if ?b then _ else _) _ _ => destruct b end; [|apply bl_ret].
        apply bl_bind; [apply rel_orelse|]. intros [D B]. apply bl_ret. }
      intros [[[[B D] C] inv] ee] ? <-. apply obs_rel, rel_ret. reflexivity.
    - intros r. apply disc_bind; [apply disc_hist_set|]. intros hist.
      apply disc_bind; [|intros [[[[B D] C] inv] ee]; apply disc_ret].
      match goal with |- disc (if ?b then _ else _) => destruct b end; d1.
  Qed.
  Lemma obs_vd_step P it s : (cm_nout P <> None -> ra = true) ->
    obs K X (vd_step P it s) (vd_step (cm_bare P) it (vs_bare s))
        (fun p q => q = (vs_bare (fst p), snd p)).
  Proof.
    intros Hn. unfold vd_step. cbn zeta.
    eapply obs_bind_rel; [exact (bl_vd_sample K HK P s)|]. intros ary ? <-.
    eapply obs_bind_rel; [exact (bl_cma_fitness K HK P _ _ _ _ _ _ _)|].
    intros [[fit valid] pen] ? <-. eapply obs_bind.
    - unfold cma_record. apply obs_rec_write. exact Hn.
    - intros r ? ->.
      eapply obs_bind_rel; [exact (bl_hist_set K P _ _ _)|]. intros hist ? <-.
      change (vd_sigma (cm_bare P) (vs_bare s)) with (vd_sigma P s).
      destruct (vd_sigma P s (e_argsort fit)) as [[ps sigma] cond].
      cbn [cm_p cm_d cm_mu cm_w cm_mueff cm_bare vs_bare vs_dvec vs_vvec vs_nv2 vs_nv vs_vn vs_vnn
           vs_pc].
      match goal with |- obs _ _ (match ?x with _ => _ end) _ _ => destruct x as [vvec dvec] end.
      apply obs_rel, rel_ret. reflexivity.
    - intros r. apply disc_bind; [apply disc_hist_set|]. intros hist.
      d1.
  Qed.

  Lemma rel_cma_setup a sg mp :
    rel (Wr K) (cma_setup (mkCMAArgs (watched ra v cb a) sg mp))
               (cma_setup (mkCMAArgs (watched false v' CbNone a) sg mp)) eq.
  Proof.
    unfold cma_setup. cbn [caa caa_sigma caa_muperc]. cbn zeta.
    eapply rel_bind; [exact (bl_eval_kindM K _ _ _)|]. intros mode ? <-.
    eapply rel_bind; [exact (bl_unpack_bounds K _)|]. intros [lower upper] ? <-.
    eapply rel_bind; [exact (bl_cma_cons_check K _)|]. intros pen ? <-.
    eapply rel_bind with (Q := eq).
    { cbn [a_x0 watched]. destruct (a_x0 a); [apply bl_ret|].
      apply rel_replicateM, (bl_uniform K HK). }
    intros xmean ? <-. eapply rel_bind; [exact (rel_orelse _ _ _)|]. intros mu ? <-.
    apply rel_ret. reflexivity.
  Qed.
  Lemma obs_cma_alloc a :
    obs K X (cma_alloc (watched ra v cb a)) (cma_alloc (watched false v' CbNone a))
        (fun p q => q = (None, snd p) /\ (fst p <> None -> ra = true)).
  Proof.
    unfold cma_alloc. cbn zeta. eapply obs_bind; [apply obs_rec_alloc| |].
    - intros nout ? [-> Hn].
      do 3 (eapply obs_bind_rel; [exact (rel_raise_if _ _ _)|]; intros _ _ _).
      eapply obs_bind_rel; [exact (rel_orelse _ _ _)|]. intros ilim ? <-.
      apply obs_rel, rel_ret. split; [reflexivity|exact Hn].
    - intros b. d1.
  Qed.
  Lemma obs_cma_check a sg mp :
    obs K X (cma_check (mkCMAArgs (watched ra v cb a) sg mp))
            (cma_check (mkCMAArgs (watched false v' CbNone a) sg mp)) eq.
  Proof.
    unfold cma_check. cbn zeta. cbn [caa caa_sigma caa_muperc].
    do 5 (eapply obs_bind_rel; [exact (rel_raise_if _ _ _)|]; intros _ _ _).
    apply (obs_seed_and_cb K HK); reflexivity.
  Qed.

  Lemma obs_cmaes a sg mp :
    obs K X (cmaes (mkCMAArgs (watched ra v cb a) sg mp))
            (cmaes (mkCMAArgs (watched false v' CbNone a) sg mp)) same_res.
  Proof.
    unfold cmaes. cbn zeta.
    eapply obs_bind_rel; [exact (rel_cma_setup a sg mp)|]. intros [xmean P0] ? <-.
    eapply obs_bind; [apply obs_cma_alloc| |].
    - intros [nout ilim] q [-> Hn]. cbn [fst snd] in *.
      match goal with |- obs _ _ (drive (cma_drv ?P) _ _ _ ?s) _ _ =>
        apply (obs_drive K HK ra cb (cma_drv P) (cma_drv (cm_bare P)) cs_bare) end.
      + apply cb_fun.
      + intros. apply obs_cma_step. exact Hn.
      + intros. apply rel_ret. reflexivity.
      + intros. repeat split.
      + intros. apply disc_cma_step.
      + intros. apply disc_ret.
    - intros [nout ilim]. apply disc_drive; intros; [apply disc_cma_step|apply disc_ret].
  Qed.
  Lemma obs_vdcma a sg mp :
    obs K X (vdcma (mkCMAArgs (watched ra v cb a) sg mp))
            (vdcma (mkCMAArgs (watched false v' CbNone a) sg mp)) same_res.
  Proof.
    unfold vdcma. cbn zeta.
    eapply obs_bind_rel; [exact (rel_cma_setup a sg mp)|]. intros [xmean P0] ? <-.
    eapply obs_bind_rel; [exact (bl_randn_vec K HK _)|]. intros z ? <-.
    eapply obs_bind; [apply obs_cma_alloc| |].
    - intros [nout ilim] q [-> Hn]. cbn [fst snd] in *.
      match goal with |- obs _ _ (drive (vd_drv ?P) _ _ _ ?s) _ _ =>
        apply (obs_drive K HK ra cb (vd_drv P) (vd_drv (cm_bare P)) vs_bare) end.
      + apply cb_fun.
      + intros. apply obs_vd_step. exact Hn.
      + intros. apply rel_ret. reflexivity.
      + intros. repeat split.
      + intros. apply disc_vd_step.
      + intros. apply disc_ret.
    - intros [nout ilim]. apply disc_drive; intros; [apply disc_vd_step|apply disc_ret].
  Qed.
  Theorem obs_cmaes_minimize A :
    obs K X (cmaes_minimize (mkCMAArgs (watched ra v cb (caa A)) (caa_sigma A) (caa_muperc A)))
            (cmaes_minimize (mkCMAArgs (watched false v' CbNone (caa A)) (caa_sigma A) (caa_muperc A)))
        same_res.
  Proof.
    unfold cmaes_minimize. eapply obs_bind; [apply obs_cma_check| |].
    - intros _ _ _. apply obs_cmaes.
    - intros _. apply disc_cmaes_body.
  Qed.
  Theorem obs_vdcma_minimize A :
    obs K X (vdcma_minimize (mkCMAArgs (watched ra v cb (caa A)) (caa_sigma A) (caa_muperc A)))
            (vdcma_minimize (mkCMAArgs (watched false v' CbNone (caa A)) (caa_sigma A) (caa_muperc A)))
        same_res.
  Proof.
    unfold vdcma_minimize. eapply obs_bind; [apply obs_cma_check| |].
    - intros _ _ _. apply obs_vdcma.
    - intros _. apply disc_vdcma_body.
  Qed.
End Opt.

(** ** The samplers *)

Section Samp.
  Context {N : Num} {E : Env N}.
  Variable K : RNG * US -> RNG * US -> Prop.
  Hypothesis HK : Harmless K.
  Variables (ra : bool) (cb : CbArg).
  Notation X := (own ra cb).
  Notation rich a := (s_watched ra cb a).
  Notation bare a := (s_watched false CbNone a).

  Lemma obs_s_has_cb a p st :
    obs K X (when (s_has_cb (rich a)) (call_scb p st)) (ret tt) eq.
  Proof.
    unfold s_has_cb. cbn. destruct cb eqn:Hc; cbn; try (apply obs_rel; apply bl_ret).
    apply obs_call_scb; [exact HK|]. intros n. left. eauto.
  Qed.
  Lemma obs_s_cb a c : obs K X (s_cb (rich a) c) (s_cb (bare a) c) eq.
  Proof. exact (obs_s_has_cb a _ _). Qed.
  Lemma obs_s_first_cb a x f : obs K X (s_first_cb (rich a) x f) (s_first_cb (bare a) x f) eq.
  Proof. exact (obs_s_has_cb a _ _). Qed.
  Lemma obs_s_seed_cb a : obs K X (s_seed_cb (rich a)) (s_seed_cb (bare a)) eq.
  Proof.
    unfold s_seed_cb. cbn [s_seed s_callback s_watched].
    apply obs_bind_bl; [apply bl_seed, HK|]. intros _. destruct cb eqn:Hc.
    - apply obs_rel, bl_ret.
    - apply (obs_pure K). intros s. cbn. split; [reflexivity|]. right; right. auto.
    - apply obs_rel, bl_ret.
  Qed.

  (** *** mcmc *)
  Definition mc_with (P : MCParams) (a : SArgs) : MCParams :=
    mkMCParams (mc_d P) (mc_b P) (mc_lower P) (mc_upper P) (mc_step P) (mc_maxiter P) a.

  Lemma obs_mc_move P a j c :
    obs K X (mc_move (mc_with P (rich a)) j c) (mc_move (mc_with P (bare a)) j c) eq.
  Proof.
    unfold mc_move.
    eapply obs_bind_rel; [exact (bl_mc_propose K HK (mc_with P a) j (ch_last_x c))|].
    intros y ? <-. eapply obs_bind_rel with (Q := eq).
    { cbn [mc_with mc_lower mc_upper mc_args s_constraints s_watched].
      destruct (in_search_space _ _ _ _); unfold rand; bl. }
    intros c' ? <-. eapply obs_bind with (Q := eq).
    - apply obs_s_cb.
    - intros _ _ _. apply obs_rel, bl_ret.
    - intros _. apply disc_ret.
  Qed.
  Lemma obs_mc_inner P a js : forall c,
    obs K X (mc_inner (mc_with P (rich a)) js c) (mc_inner (mc_with P (bare a)) js c) eq.
  Proof.
    induction js as [|j js IH]; intros c; cbn [mc_inner]; [apply obs_rel, bl_ret|].
    eapply obs_bind; [apply obs_mc_move| |].
    - intros c' ? <-. change (mc_full (mc_with P (bare a)) c') with (mc_full (mc_with P (rich a)) c').
      destruct (mc_full _ c'); [apply obs_rel, bl_ret|apply IH].
    - intros c'. destruct (mc_full _ c'); [apply disc_ret|apply disc_mc_inner].
  Qed.
  Lemma obs_mc_outer P a fl : forall c,
    obs K X (mc_outer (mc_with P (rich a)) fl c) (mc_outer (mc_with P (bare a)) fl c) eq.
  Proof.
    induction fl as [|k IH]; intros c; cbn [mc_outer mc_with mc_maxiter];
      (destruct (_ <? _)%Z; [|apply obs_rel, bl_ret]); [apply obs_rel, rel_raise|].
    eapply obs_bind; [exact (obs_mc_inner P a _ c)| |].
    - intros c' ? <-. apply IH.
    - intros c'. apply disc_mc_outer.
  Qed.
  Theorem obs_mcmc_sample A :
    obs K X (mcmc_sample (mkMCArgs (rich (mca A)) (mca_perc A)))
            (mcmc_sample (mkMCArgs (bare (mca A)) (mca_perc A))) same_samp.
  Proof.
    unfold mcmc_sample, mcmc_fuel. cbn zeta. cbn [mca mca_perc].
    eapply obs_bind_rel; [exact (bl_s_check_x0 K (mca A))|]. intros [lower upper] ? <-.
    eapply obs_bind_rel; [exact (bl_s_steps K (mca A) lower upper)|]. intros steps ? <-.
    eapply obs_bind_rel; [exact (rel_raise_if _ _ _)|]. intros _ _ _.
    eapply obs_bind_rel; [exact (rel_orelse _ _ _)|]. intros b ? <-.
    eapply obs_bind; [apply obs_s_seed_cb| |].
    - intros _ _ _.
      eapply obs_bind_rel; [exact (bl_s_first K HK (mca A) lower upper)|]. intros x ? <-.
      eapply obs_bind_rel; [exact (bl_call_fun K HK x)|]. intros f ? <-.
      eapply obs_bind; [apply obs_s_first_cb| |].
      + intros _ _ _.
        set (P := mkMCParams (nd_len (s_bounds (mca A))) (Z.to_nat (Z.max 1 b)) lower upper steps
                             (s_maxiter (mca A)) (mca A)).
        eapply obs_bind; [exact (obs_mc_outer P (mca A) _ _)| |].
        * intros c ? <-. apply obs_rel, rel_ret. unfold same_samp. cbn. auto.
        * intros c. apply disc_ret.
      + intros _. apply disc_bind; [apply disc_mc_outer|]. intros. apply disc_ret.
    - intros _. apply disc_bind; [apply disc_s_first|]. intros x.
      apply disc_bind; [apply disc_call_fun|]. intros f.
      apply disc_bind; [apply disc_s_first_cb|]. intros _.
      apply disc_bind; [apply disc_mc_outer|]. intros. apply disc_ret.
  Qed.

  (** *** hmc *)
  Definition hm_with (P : HMCParams) (a : SArgs) : HMCParams :=
    mkHMCParams (hm_lower P) (hm_upper P) (hm_step P) (hm_nleap P) (hm_jac P) (hm_fd P) (hm_d P) a.

  Lemma obs_hmc_move P a cn :
    obs K X (hmc_move (hm_with P (rich a)) cn) (hmc_move (hm_with P (bare a)) cn) eq.
  Proof.
    unfold hmc_move. destruct cn as [c nf]. cbn zeta.
    eapply obs_bind_rel; [exact (bl_randn_vec K HK _)|]. intros p0 ? <-.
    eapply obs_bind_rel; [exact (bl_leapfrog K HK _ _ _ _ _ _ _)|]. intros [[q p] nf'] ? <-.
    eapply obs_bind_rel with (Q := eq).
    { cbn [hm_with hm_lower hm_upper hm_args s_constraints s_watched].
      destruct (in_search_space _ _ _ _); [|apply bl_ret]. unfold count_fun, rand. bl. }
    intros [c' nf''] ? <-. eapply obs_bind with (Q := eq).
    - apply obs_s_cb.
    - intros _ _ _. apply obs_rel, bl_ret.
    - intros _. apply disc_ret.
  Qed.
  Lemma obs_hmc_loop P a n : forall cn,
    obs K X (hmc_loop (hm_with P (rich a)) n cn) (hmc_loop (hm_with P (bare a)) n cn) eq.
  Proof.
    induction n as [|n IH]; intros cn; cbn [hmc_loop]; [apply obs_rel, bl_ret|].
    eapply obs_bind; [apply obs_hmc_move| |].
    - intros cn' ? <-. apply IH.
    - intros cn'. apply disc_hmc_loop.
  Qed.
  Theorem obs_hmc_sample A :
    obs K X (hmc_sample (mkHMCArgs (rich (hma A)) (hma_nleap A) (hma_jac A) (hma_fd A)))
            (hmc_sample (mkHMCArgs (bare (hma A)) (hma_nleap A) (hma_jac A) (hma_fd A))) same_samp.
  Proof.
    unfold hmc_sample. cbn zeta. cbn [hma hma_nleap hma_jac hma_fd].
    eapply obs_bind_rel; [exact (bl_s_check_x0 K (hma A))|]. intros [lower upper] ? <-.
    eapply obs_bind_rel; [exact (rel_raise_if _ _ _)|]. intros _ _ _.
    eapply obs_bind_rel; [exact (bl_s_steps K (hma A) lower upper)|]. intros steps ? <-.
    eapply obs_bind_rel; [exact (rel_raise_if _ _ _)|]. intros _ _ _.
    eapply obs_bind; [apply obs_s_seed_cb| |].
    - intros _ _ _.
      eapply obs_bind_rel; [exact (bl_s_first K HK (hma A) lower upper)|]. intros x ? <-.
      eapply obs_bind_rel; [exact (bl_count_fun K HK 0 x)|]. intros [f nf] ? <-.
      eapply obs_bind; [apply obs_s_first_cb| |].
      + intros _ _ _.
        set (P := mkHMCParams lower upper steps (Z.to_nat (hma_nleap A)) (hma_jac A) (hma_fd A)
                              (nd_len (s_bounds (hma A))) (hma A)).
        eapply obs_bind; [exact (obs_hmc_loop P (hma A) _ _)| |].
        * intros [c nf'] ? <-. apply obs_bind_bl; [apply rel_np_argmin|]. intros idx.
          apply obs_rel, rel_ret. unfold same_samp. cbn. auto 10.
        * intros [c nf']. apply disc_bind; [apply disc_np_argmin|]. intros. apply disc_ret.
      + intros _. apply disc_bind; [apply disc_hmc_loop|]. intros [c nf'].
        apply disc_bind; [apply disc_np_argmin|]. intros. apply disc_ret.
    - intros _. apply disc_bind; [apply disc_s_first|]. intros x.
      apply disc_bind; [apply disc_count_fun|]. intros [f nf].
      apply disc_bind; [apply disc_s_first_cb|]. intros _.
      apply disc_bind; [apply disc_hmc_loop|]. intros [c nf'].
      apply disc_bind; [apply disc_np_argmin|]. intros. apply disc_ret.
  Qed.
End Samp.

(** ** C66 *)

Section C66.
  Context {N : Num} {E : Env N}.

  (** The result of any of the eight entry points. *)
  Inductive Outcome := ROpt (r : OptRes) | RSamp (r : SampRes).
  Definition keep {A} (f : A -> Outcome) (m : M A) : M Outcome := r <- m ;; ret (f r).
  Definition outcome (c : AnyCall) : M Outcome :=
    match c with
    | RunDE A => keep ROpt (de_minimize A) | RunCPSO A => keep ROpt (cpso_minimize A)
    | RunPSO A => keep ROpt (pso_minimize A) | RunNA A => keep ROpt (na_minimize A)
    | RunCMAES A => keep ROpt (cmaes_minimize A) | RunVDCMA A => keep ROpt (vdcma_minimize A)
    | RunMCMC A => keep RSamp (mcmc_sample A) | RunHMC A => keep RSamp (hmc_sample A)
    end.
  Definition same_outcome (r b : Outcome) : Prop :=
    match r, b with
    | ROpt r, ROpt b => same_res r b
    | RSamp r, RSamp b => same_samp r b
    | _, _ => False
    end.
  (** The same call with other settings of return_all, verbosity and callback. *)
  Definition watch (ra : bool) (v : T) (cb : CbArg) (c : AnyCall) : AnyCall :=
    match c with
    | RunDE A => RunDE (mkDEArgs (watched ra v cb (dea A)) (dea_mutation A) (dea_recombination A)
                                 (dea_strategy A) (dea_updating A))
    | RunCPSO A => RunCPSO (mkCPSOArgs (watched ra v cb (pa A)) (pa_inertia A) (pa_cognitivity A)
                                       (pa_sociability A) (pa_competitivity A) (pa_updating A))
    | RunPSO A => RunPSO (mkPSOArgs (watched ra v cb (psa A)) (psa_inertia A) (psa_cognitivity A)
                                    (psa_sociability A) (psa_updating A))
    | RunNA A => RunNA (mkNAArgs (watched ra v cb (naa A)) (naa_nrperc A))
    | RunCMAES A => RunCMAES (mkCMAArgs (watched ra v cb (caa A)) (caa_sigma A) (caa_muperc A))
    | RunVDCMA A => RunVDCMA (mkCMAArgs (watched ra v cb (caa A)) (caa_sigma A) (caa_muperc A))
    | RunMCMC A => RunMCMC (mkMCArgs (s_watched ra cb (mca A)) (mca_perc A))
    | RunHMC A => RunHMC (mkHMCArgs (s_watched ra cb (hma A)) (hma_nleap A) (hma_jac A) (hma_fd A))
    end.

  Lemma obs_keep K X {A} (f : A -> Outcome) (m m' : M A) (Q : A -> A -> Prop) :
    (forall a b, Q a b -> same_outcome (f a) (f b)) -> obs K X m m' Q ->
    obs K X (keep f m) (keep f m') same_outcome.
  Proof.
    intros HQ H. unfold keep. eapply obs_bind; [exact H| |].
    - intros a b Hab. apply obs_rel, rel_ret, HQ, Hab.
    - intros b. apply disc_ret.
  Qed.
  Lemma obs_exec {A} (K : RNG * US -> RNG * US -> Prop) (X : Exn -> Prop) (Q : A -> A -> Prop) (m m' : M A) w a0 :
    K w w -> obs K X m m' Q -> only_watched K X Q (exec m w a0) (exec m' w a0).
  Proof.
    intros Hw H. specialize (H (mkSt w [] a0) (mkSt w [] a0) (conj Hw (conj eq_refl eq_refl))).
    unfold only_watched, exec. destruct (fst (m _)) as [a|e].
    - destruct H as [b [H1 [H2 [H3 [H4 H5]]]]]. exists b. auto 10.
    - destruct H as [[H1 [H3 [H4 H5]]]|H]; auto.
  Qed.

  (** A watched run against the same run with return_all = False and no callback. *)
  Theorem C66_unwatched (K : RNG * US -> RNG * US -> Prop) c ra v cb v' w a0 :
    Harmless K -> K w w ->
    only_watched K (own ra cb) same_outcome
                 (exec (outcome (watch ra v cb c)) w a0)
                 (exec (outcome (watch false v' CbNone c)) w a0).
  Proof.
    intros HK Hw. apply obs_exec; [exact Hw|].
    destruct c as [A|A|A|A|A|A|A|A]; cbn [watch outcome]; (eapply obs_keep;
      [|first [ apply (obs_de_minimize K HK) | apply (obs_cpso_minimize K HK)
              | apply (obs_pso_minimize K HK) | apply (obs_na_minimize K HK)
              | apply (obs_cmaes_minimize K HK) | apply (obs_vdcma_minimize K HK)
              | apply (obs_mcmc_sample K HK) | apply (obs_hmc_sample K HK) ]]);
      intros a b H; exact H.
  Qed.

  (** Two calls that differ only in return_all, verbosity and callback, both returning. *)
  Theorem C66_same_search (K : RNG * US -> RNG * US -> Prop) c ra v cb ra' v' cb' w a0 r r' s s' :
    Harmless K -> K w w ->
    exec (outcome (watch ra v cb c)) w a0 = (inl r, s) ->
    exec (outcome (watch ra' v' cb' c)) w a0 = (inl r', s') ->
    same_outcome r r' /\ calls (tr s) = calls (tr s') /\ argbuf s = argbuf s'.
  Proof.
    intros HK Hw H1 H2.
    pose proof (C66_unwatched K c ra v cb v w a0 HK Hw) as C1.
    pose proof (C66_unwatched K c ra' v' cb' v w a0 HK Hw) as C2.
    unfold only_watched in C1, C2. rewrite H1 in C1. rewrite H2 in C2. cbn in C1, C2.
    destruct C1 as [b1 [B1 [Q1 [_ [T1 G1]]]]]. destruct C2 as [b2 [B2 [Q2 [_ [T2 G2]]]]].
    rewrite B1 in B2. injection B2 as <-. rewrite T1, T2, G1, G2.
    split; [|split; reflexivity].
    destruct r, r', b1; cbn in *; try contradiction; unfold same_res, same_samp in *;
      repeat match goal with H : _ /\ _ |- _ => destruct H end; repeat split; congruence.
  Qed.

  (** If the unwatched run raises, so does every watched one: no setting rescues a run.  And
      when the unwatched run returns, only an exception of the watching can stop a watched one,
      before any evaluation that the unwatched run would not make. *)
  Theorem C66_no_rescue (K : RNG * US -> RNG * US -> Prop) c ra v cb v' w a0 e s :
    Harmless K -> K w w ->
    exec (outcome (watch false v' CbNone c)) w a0 = (inr e, s) ->
    exists e' s', exec (outcome (watch ra v cb c)) w a0 = (inr e', s') /\
                  (e' = e \/ own ra cb e').
  Proof.
    intros HK Hw H. pose proof (C66_unwatched K c ra v cb v' w a0 HK Hw) as C.
    unfold only_watched in C. rewrite H in C. cbn in C.
    destruct (exec (outcome (watch ra v cb c)) w a0) as [[r|e'] s']; cbn in C.
    - destruct C as [b [B _]]. discriminate.
    - exists e', s'. split; [reflexivity|]. destruct C as [[B _]|[B _]]; [left; congruence|auto].
  Qed.
  Theorem C66_only_own (K : RNG * US -> RNG * US -> Prop) c ra v cb v' w a0 r s e s' :
    Harmless K -> K w w ->
    exec (outcome (watch false v' CbNone c)) w a0 = (inl r, s) ->
    exec (outcome (watch ra v cb c)) w a0 = (inr e, s') ->
    own ra cb e /\ exists rest, calls (tr s) = calls (tr s') ++ rest.
  Proof.
    intros HK Hw H H'. pose proof (C66_unwatched K c ra v cb v' w a0 HK Hw) as C.
    unfold only_watched in C. rewrite H, H' in C. cbn in C. destruct C as [[B _]|C]; [discriminate|exact C].
  Qed.

  (** A callback that changes nothing at all is harmless. *)
  Theorem C66_passive :
    (forall X st w, snd (e_cb X st w) = w) -> (forall x st w, snd (e_scb x st w) = w) ->
    Harmless eq.
  Proof.
    intros H1 H2. constructor; intros; subst; try reflexivity; try (split; reflexivity).
    - apply H1.
    - apply H2.
  Qed.
End C66.
