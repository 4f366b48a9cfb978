(** C61: the samplers use the values of the objective only through their differences and their
    order: a constant added to the objective gives the same samples. *)
From Verif Require Import Base Num Env Common DE Sample Rel Hoare EvalRules Gen Mono.

(** ** Specification *)
Section Spec.
  Context {N : Num}.
  Variable g : T -> T.

  (** [g] keeps the order and the differences of the values in [V]; the value +infinity, which
      mcmc reports when no sample was accepted, stays. *)
  Record Shift (V : T -> Prop) : Prop := {
    sf_inc : Increasing g V;
    sf_diff : forall x y, V x -> V y -> nsub (g x) (g y) = nsub x y;
    sf_inf : g ninf = ninf;
    sf_V : V ninf }.

  (** What the values of a run become. *)
  Definition shift_all (a : option (matrix * vec)) : option (matrix * vec) :=
    match a with Some (xs, fs) => Some (xs, map g fs) | None => None end.
  Definition shift_state (st : SCbState) : SCbState :=
    {| scb_x := scb_x st; scb_fun := g (scb_fun st); scb_nit := scb_nit st;
       scb_accept := scb_accept st; scb_all := shift_all (scb_all st) |}.
  Definition shift_event (e : event) : event :=
    match e with
    | EEval x (inl y) => EEval x (inl (g y))
    | ESCb x st r => ESCb x (shift_state st) r
    | e => e
    end.
  Definition shift_result (r : SampRes) : SampRes :=
    mkSampRes (sr_x r) (g (sr_fun r)) (sr_nit r) (sr_accept r) (sr_nfev r) (shift_all (sr_all r)).

  (** The environment in which the objective returns [g (fun x)], with callback [cb]. *)
  Definition shifted (E : Env N)
      (cb : vec -> SCbState -> @RNG N E * @US N E -> option nat * (@RNG N E * @US N E)) : Env N :=
    @mkEnv N (@RNG N E) (@US N E) (@e_seed N E) (@e_rand N E) (@e_randn N E) (@e_perm N E)
           (@e_randint N E)
           (fun x w => match e_fun x w with
                       | (inl y, w') => (inl (g y), w')
                       | (inr e, w') => (inr e, w')
                       end)
           (@e_cb N E) cb (@e_sched N E) (@e_rank N E) (@e_mpisize N E) (@e_bcast N E)
           (@e_allreduce N E) (@e_argsort N E) (@e_percentile N E) (@e_median N E)
           (@e_eigh N E) (@e_empty N E).
End Spec.

Section Shift.
  Context {N : Num} {E : Env N}.
  Variable g : T -> T.
  Variable V : T -> Prop.
  Hypothesis HG : Shift g V.
  Hypothesis HF : ValuesIn E V.
  Variable cb' : vec -> SCbState -> @RNG N E * @US N E -> option nat * (@RNG N E * @US N E).
  Hypothesis HCB : forall x st w, cb' x (shift_state g st) w = e_scb x st w.
  Let E' : Env N := shifted g E cb'.

  Definition RS (s1 : @St N E) (s2 : @St N E') : Prop :=
    rs s1 = rs s2 /\ argbuf s1 = argbuf s2 /\ tr s2 = map (shift_event g) (tr s1).

  Notation rel' := (@rel N E E' RS).
  Notation mg := (@map T T g).

  Lemma h_draw {A} (f : @RNG N E -> A * @RNG N E) : rel' (@draw N E A f) (@draw N E' A f) eq.
  Proof.
    intros s1 s2 [H1 [H2 H3]]. unfold draw.
    change (@RNG N E') with (@RNG N E). change (@US N E') with (@US N E).
    rewrite <- H1. destruct (f (fst (rs s1))) as [a r]. unfold RS. cbn. auto.
  Qed.
  Lemma h_rand : rel' rand rand eq. Proof. exact (h_draw e_rand). Qed.
  Lemma h_randn : rel' randn randn eq. Proof. exact (h_draw e_randn). Qed.
  Lemma h_randn_vec d : rel' (randn_vec d) (randn_vec d) eq.
  Proof. apply rel_replicateM, h_randn. Qed.
  Lemma h_uniform_vec l u : rel' (uniform_vec l u) (uniform_vec l u) eq.
  Proof.
    apply rel_bind with (Q := eq).
    { unfold urange. destruct (frange _ _); [apply rel_ret; reflexivity|apply rel_raise]. }
    intros ? ? _. apply rel_mapM. intros. eapply rel_bind; [apply h_rand|]. intros a1 b1 <-. apply rel_ret. reflexivity.
  Qed.
  Lemma h_seed o : rel' (seed o) (seed o) eq.
  Proof.
    destruct o as [z|]; [|apply rel_ret; reflexivity].
    intros s1 s2 [H1 [H2 H3]]. unfold RS. cbn. rewrite <- H1. auto.
  Qed.
  Lemma h_set_arg X : rel' (set_arg X) (set_arg X) eq.
  Proof. intros s1 s2 [H1 [H2 H3]]. unfold RS. cbn. auto. Qed.
  Lemma h_call_fun x : rel' (call_fun x) (call_fun x) (fun y y' => y' = g y /\ V y).
  Proof.
    intros s1 s2 [H1 [H2 H3]]. unfold call_fun. cbn [e_fun E' shifted].
    change (@e_fun N E' x (rs s2)) with
      (match e_fun x (rs s2) with
       | (inl y, w') => (inl (g y), w')
       | (inr e, w') => (@inr T nat e, w')
       end).
    rewrite <- H1. change (@RNG N E') with (@RNG N E). change (@US N E') with (@US N E).
    pose proof (HF x (rs s1)) as HV.
    destruct (e_fun x (rs s1)) as [[y|e] w]; unfold RS; cbn; rewrite H3, map_app; auto.
  Qed.
  Lemma h_call_scb x st st' : st' = shift_state g st -> rel' (call_scb x st) (call_scb x st') eq.
  Proof.
    intros -> s1 s2 [H1 [H2 H3]]. unfold call_scb.
    change (@e_scb N E') with cb'. rewrite <- H1.
    change (@RNG N E') with (@RNG N E). change (@US N E') with (@US N E).
    rewrite HCB. destruct (e_scb x st (rs s1)) as [r w]. unfold RS. cbn.
    rewrite H3, map_app. split; [auto|]. destruct r; reflexivity.
  Qed.

  (** ** The arguments *)
  Lemma h_check_x0 a : rel' (s_check_x0 a) (s_check_x0 a) eq.
  Proof.
    unfold s_check_x0. eapply rel_bind; [apply rel_raise_if|]. intros _ _ _.
    eapply rel_bind; [apply rel_raise_if|]. intros _ _ _.
    eapply rel_bind; [apply rel_unpack|]. intros [lo up] ? <-.
    apply rel_bind with (Q := eq); [|intros _ _ _; apply rel_ret; reflexivity].
    destruct (s_x0 a) as [[x|v|c m]|]; [apply rel_raise|apply rel_raise_if|apply rel_raise_if|].
    apply rel_ret. reflexivity.
  Qed.
  Lemma h_steps a lo up : rel' (s_steps a lo up) (s_steps a lo up) eq.
  Proof.
    unfold s_steps. cbv zeta. eapply rel_bind; [apply rel_raise_if|]. intros _ _ _.
    destruct (match s_stepsize a with D0 x => D1 (repeat x (nd_len (s_bounds a))) | y => y end);
      try apply rel_raise.
    eapply rel_bind; [apply rel_when, h_set_arg|]. intros _ _ _. apply rel_ret. reflexivity.
  Qed.
  Lemma h_seed_cb a : rel' (s_seed_cb a) (s_seed_cb a) eq.
  Proof. eapply rel_bind; [apply h_seed|]. intros _ _ _. apply rel_raise_if. Qed.
  Lemma h_first a lo up : rel' (s_first a lo up) (s_first a lo up) eq.
  Proof.
    eapply rel_bind; [apply rel_raise_if|]. intros _ _ _.
    apply rel_bind with (Q := eq).
    - destruct (s_x0 a) as [[x|v|c m]|]; try apply rel_raise; [apply rel_ret; reflexivity|].
      apply h_uniform_vec.
    - intros x ? <-. eapply rel_bind; [apply rel_raise_if|]. intros _ _ _. apply rel_ret. reflexivity.
  Qed.

  (** ** The chain *)
  Definition ChG (c c' : Chain) : Prop :=
    ch_x c' = ch_x c /\ ch_f c' = mg (ch_f c) /\ ch_acc c' = ch_acc c /\
    ch_imin c' = ch_imin c /\ ch_fmin c' = g (ch_fmin c) /\
    length (ch_f c) = length (ch_x c) /\ ch_imin c < length (ch_f c) /\
    Forall V (ch_f c) /\ V (ch_fmin c).

  Lemma h_nth i l : i < length l -> nth i (mg l) n0 = g (nth i l n0).
  Proof. intro H. rewrite (nth_indep _ n0 (g n0)) by (rewrite map_length; exact H). apply map_nth. Qed.
  Lemma h_last c c' : ChG c c' ->
    ch_last_x c' = ch_last_x c /\ ch_last_f c' = g (ch_last_f c) /\ V (ch_last_f c).
  Proof.
    intros (H1 & H2 & _ & _ & _ & H6 & H7 & H8 & _). unfold ch_last_x, ch_last_f.
    rewrite H1, H2, map_length. split; [reflexivity|].
    assert (Hl : length (ch_f c) - 1 < length (ch_f c)) by lia.
    split; [apply h_nth, Hl|]. rewrite Forall_forall in H8. apply H8, nth_In, Hl.
  Qed.
  Lemma h_accept c c' x f : ChG c c' -> V f -> ChG (ch_accept c x f) (ch_accept c' x (g f)).
  Proof.
    intros (H1 & H2 & H3 & H4 & H5 & H6 & H7 & H8 & H9) Hf. unfold ch_accept.
    rewrite H5, (inc_lt g V (sf_inc g V HG)) by assumption.
    destruct (nltb f (ch_fmin c)); unfold ChG; cbn; rewrite ?H1, ?H2, ?H3, ?H4, ?H5, map_app, !app_length; cbn;
      repeat split; try reflexivity; try lia; try assumption;
      apply Forall_app; split; auto.
  Qed.
  Lemma h_reject c c' : ChG c c' -> ChG (ch_reject c) (ch_reject c').
  Proof.
    intros HC. destruct (h_last _ _ HC) as (L1 & L2 & L3).
    destruct HC as (H1 & H2 & H3 & H4 & H5 & H6 & H7 & H8 & H9).
    unfold ch_reject, ChG; cbn. rewrite L1, L2, H1, H2, H3, H4, H5, map_app, !app_length; cbn.
    repeat split; try reflexivity; try lia; try assumption. apply Forall_app; split; auto.
  Qed.
  Lemma h_start x f : V f -> ChG (mkChain [x] [f] 0 0 ninf) (mkChain [x] [g f] 0 0 ninf).
  Proof.
    intro Hf. unfold ChG; cbn. rewrite (sf_inf g V HG). repeat split; auto. apply HG.
  Qed.

  Lemma h_first_cb a x f : rel' (s_first_cb a x f) (s_first_cb a x (g f)) eq.
  Proof.
    apply rel_when, h_call_scb. unfold shift_state. cbn. destruct (s_return_all a); reflexivity.
  Qed.
  Lemma h_cb a c c' : ChG c c' -> rel' (s_cb a c) (s_cb a c') eq.
  Proof.
    intros (H1 & H2 & H3 & H4 & H5 & H6 & H7 & H8 & H9). unfold s_cb. rewrite H1, H2, H3, H4.
    apply rel_when, h_call_scb. unfold shift_state. cbn. rewrite h_nth by exact H7.
    f_equal. destruct (s_return_all a); cbn; [|reflexivity]. rewrite firstn_map. reflexivity.
  Qed.

  (** ** mcmc *)
  Lemma h_propose P j x : rel' (mc_propose P j x) (mc_propose P j x) eq.
  Proof.
    eapply rel_bind; [apply h_randn_vec|]. intros z ? <-. cbv zeta.
    eapply rel_bind; [apply rel_raise_if|]. intros _ _ _. apply rel_ret. reflexivity.
  Qed.
  Lemma h_mc_move P j c c' : ChG c c' -> rel' (mc_move P j c) (mc_move P j c') ChG.
  Proof.
    intro HC. destruct (h_last _ _ HC) as (L1 & L2 & L3). unfold mc_move. rewrite L1, L2.
    eapply rel_bind; [apply h_propose|]. intros y ? <-.
    apply rel_bind with (Q := ChG).
    - destruct (in_search_space _ _ _ _); [|apply rel_ret, h_reject, HC].
      eapply rel_bind; [apply h_call_fun|]. intros fy ? [-> Hy].
      eapply rel_bind; [apply h_rand|]. intros u ? <-. apply rel_ret.
      rewrite (sf_diff g V HG) by assumption.
      destruct (metropolis _ _); [apply h_accept | apply h_reject]; assumption.
    - intros d d' HD. eapply rel_bind; [apply h_cb, HD|]. intros _ _ _. apply rel_ret, HD.
  Qed.
  Lemma h_full P c c' : ChG c c' -> mc_full P c' = mc_full P c.
  Proof. intros (H1 & _). unfold mc_full. rewrite H1. reflexivity. Qed.
  Lemma h_mc_inner P js : forall c c', ChG c c' -> rel' (mc_inner P js c) (mc_inner P js c') ChG.
  Proof.
    induction js as [|j js IH]; intros c c' HC; cbn [mc_inner]; [apply rel_ret, HC|].
    eapply rel_bind; [apply h_mc_move, HC|]. intros d d' HD. rewrite (h_full P d d' HD).
    destruct (mc_full P d); [apply rel_ret, HD | apply IH, HD].
  Qed.
  Lemma h_mc_outer P fl : forall c c', ChG c c' -> rel' (mc_outer P fl c) (mc_outer P fl c') ChG.
  Proof.
    induction fl as [|fl IH]; intros c c' HC; cbn [mc_outer]; rewrite (proj1 HC);
      destruct (_ <? _)%Z; try (apply rel_ret, HC); [apply rel_raise|].
    eapply rel_bind; [apply h_mc_inner, HC|]. intros d d' HD. apply IH, HD.
  Qed.

  Lemma h_mcmc A : rel' (mcmc_sample A) (mcmc_sample A) (fun r r' => r' = shift_result g r).
  Proof.
    unfold mcmc_sample, mcmc_fuel. cbv zeta.
    eapply rel_bind; [apply h_check_x0|]. intros [lo up] ? <-.
    eapply rel_bind; [apply h_steps|]. intros st ? <-.
    eapply rel_bind; [apply rel_raise_if|]. intros _ _ _.
    eapply rel_bind; [apply rel_orelse|]. intros b ? <-.
    eapply rel_bind; [apply h_seed_cb|]. intros _ _ _.
    eapply rel_bind; [apply h_first|]. intros x ? <-.
    eapply rel_bind; [apply h_call_fun|]. intros f ? [-> Hf].
    eapply rel_bind; [apply h_first_cb|]. intros _ _ _.
    eapply rel_bind; [apply h_mc_outer, h_start, Hf|].
    intros c c' (H1 & H2 & H3 & H4 & H5 & _). apply rel_ret.
    unfold shift_result. cbn. rewrite H1, H2, H3, H4, H5. destruct (s_return_all _); reflexivity.
  Qed.

  (** ** hmc *)
  Lemma h_count nf x : rel' (count_fun nf x) (count_fun nf x)
    (fun p p' => fst p' = g (fst p) /\ snd p' = snd p /\ V (fst p)).
  Proof.
    eapply rel_bind; [apply h_call_fun|]. intros y ? [-> Hy]. apply rel_ret. cbn. auto.
  Qed.
  Lemma h_ng_one h acc i : rel' (ng_one h acc i) (ng_one h acc i) eq.
  Proof.
    destruct acc as [[[x1 x2] gr] nf]. unfold ng_one.
    eapply rel_bind; [apply h_count|]. intros [f2 n2] [y' z'] (K1 & K2 & H2). cbn [fst snd] in *. subst y' z'.
    eapply rel_bind; [apply h_count|]. intros [f1 n1'] [y' z'] (K1 & K2 & H1). cbn [fst snd] in *. subst y' z'.
    apply rel_ret. rewrite (sf_diff g V HG) by assumption. reflexivity.
  Qed.
  Lemma h_gradient h nf x : rel' (numerical_gradient h nf x) (numerical_gradient h nf x) eq.
  Proof.
    eapply rel_bind; [apply rel_foldM; intros; apply h_ng_one|]. intros [[[a b] gr] n] ? <-.
    apply rel_ret. reflexivity.
  Qed.
  Lemma h_jac j h nf q : rel' (hmc_jac j h nf q) (hmc_jac j h nf q) eq.
  Proof. destruct j; [apply h_gradient | apply h_gradient | apply rel_raise]. Qed.
  Lemma h_leap_loop j h st n : forall q p nf,
    rel' (leap_loop (hmc_jac j h) st n q p nf) (leap_loop (hmc_jac j h) st n q p nf) eq.
  Proof.
    induction n as [|n IH]; intros q p nf; cbn [leap_loop]; [apply rel_ret; reflexivity|].
    eapply rel_bind; [apply h_jac|]. intros [gr n'] ? <-. apply IH.
  Qed.
  Lemma h_leapfrog j h st n q p nf :
    rel' (leapfrog (hmc_jac j h) st n q p nf) (leapfrog (hmc_jac j h) st n q p nf) eq.
  Proof.
    unfold leapfrog. eapply rel_bind; [apply h_jac|]. intros [gr n'] ? <-.
    eapply rel_bind; [apply h_leap_loop|]. intros [[q1 p1] n1'] ? <-.
    eapply rel_bind; [apply h_jac|]. intros [gr2 n2] ? <-. apply rel_ret. reflexivity.
  Qed.
  Definition ChN (p p' : Chain * Z) : Prop := ChG (fst p) (fst p') /\ snd p' = snd p.
  Lemma h_hmc_move P cn cn' : ChN cn cn' -> rel' (hmc_move P cn) (hmc_move P cn') ChN.
  Proof.
    destruct cn as [c nf], cn' as [c' nf']. intros [HC Hn]. cbn in HC, Hn. subst nf'.
    destruct (h_last _ _ HC) as (L1 & L2 & L3). unfold hmc_move. rewrite L1.
    eapply rel_bind; [apply h_randn_vec|]. intros p0 ? <-.
    eapply rel_bind; [apply h_leapfrog|]. intros [[q p] n1'] ? <-.
    apply rel_bind with (Q := ChN).
    - destruct (in_search_space _ _ _ _); [|apply rel_ret; split; [apply h_reject, HC | reflexivity]].
      eapply rel_bind; [apply h_count|]. intros [U0 m0] [y' z'] (K1 & K2 & HU0). cbn [fst snd] in *. subst y' z'.
      eapply rel_bind; [apply h_count|]. intros [U m] [y' z'] (K1 & K2 & HU). cbn [fst snd] in *. subst y' z'.
      eapply rel_bind; [apply h_rand|]. intros u ? <-. apply rel_ret.
      rewrite (sf_diff g V HG) by assumption. split; [|reflexivity]. cbn [fst].
      destruct (metropolis _ _); [apply h_accept | apply h_reject]; assumption.
    - intros [d m] [d' m'] [HD Hm]. cbn in HD, Hm. subst m'.
      eapply rel_bind; [apply h_cb, HD|]. intros _ _ _. apply rel_ret. split; [exact HD | reflexivity].
  Qed.
  Lemma h_hmc_loop P n : forall cn cn', ChN cn cn' -> rel' (hmc_loop P n cn) (hmc_loop P n cn') ChN.
  Proof.
    induction n as [|n IH]; intros cn cn' HC; cbn [hmc_loop]; [apply rel_ret, HC|].
    eapply rel_bind; [apply h_hmc_move, HC|]. intros d d' HD. apply IH, HD.
  Qed.

  Lemma h_hmc A : rel' (hmc_sample A) (hmc_sample A) (fun r r' => r' = shift_result g r).
  Proof.
    unfold hmc_sample. cbv zeta.
    eapply rel_bind; [apply h_check_x0|]. intros [lo up] ? <-.
    eapply rel_bind; [apply rel_raise_if|]. intros _ _ _.
    eapply rel_bind; [apply h_steps|]. intros st ? <-.
    eapply rel_bind; [apply rel_raise_if|]. intros _ _ _.
    eapply rel_bind; [apply h_seed_cb|]. intros _ _ _.
    eapply rel_bind; [apply h_first|]. intros x ? <-.
    eapply rel_bind; [apply h_count|]. intros [f nf] [y' z'] (K1 & K2 & Hf). cbn [fst snd] in *. subst y' z'.
    eapply rel_bind; [apply h_first_cb|]. intros _ _ _.
    eapply rel_bind; [apply h_hmc_loop; split; [apply h_start, Hf | reflexivity]|].
    intros [c m] [c' m'] [(H1 & H2 & H3 & H4 & H5 & H6 & H7 & H8 & _) Hm]. cbn [fst snd] in *. subst m'.
    apply rel_bind with (Q := fun i j => i = j /\ i < length (ch_f c)).
    - rewrite H2. destruct (ch_f c) as [|a l] eqn:He; [apply rel_raise|]. apply rel_ret.
      change (g a :: map g l) with (mg (a :: l)). rewrite (g_argmin g V (sf_inc g V HG)) by exact H8.
      split; [reflexivity|]. apply argmin_lt. discriminate.
    - intros i ? [<- Hi]. apply rel_ret. unfold shift_result. cbn. rewrite H1, H2, H3, h_nth by exact Hi.
      destruct (s_return_all _); reflexivity.
  Qed.

  (** ** The claims *)
  Definition SameSamples (m : @M N E SampRes) (m' : @M N E' SampRes) : Prop :=
    forall w a0,
      let (r, st) := exec m w a0 in
      let (r', st') := exec m' w a0 in
      rs st' = rs st /\ argbuf st' = argbuf st /\ tr st' = map (shift_event g) (tr st) /\
      match r with
      | inl a => r' = inl (shift_result g a)
      | inr e => r' = inr e
      end.

  Lemma rel_SameSamples (m : @M N E SampRes) (m' : @M N E' SampRes) :
    rel' m m' (fun r r' => r' = shift_result g r) -> SameSamples m m'.
  Proof.
    intros H w a0. destruct (H (mkSt w [] a0) (@mkSt N E' w [] a0)) as [(H1 & H2 & H3) H4].
    { repeat split. }
    unfold exec. destruct (m _) as [r st], (m' _) as [r' st']. cbn [fst snd] in *.
    repeat split; auto. destruct r, r'; try contradiction; congruence.
  Qed.

  Theorem C61_mcmc A : SameSamples (mcmc_sample A) (mcmc_sample A).
  Proof. apply rel_SameSamples, h_mcmc. Qed.
  Theorem C61_hmc A : SameSamples (hmc_sample A) (hmc_sample A).
  Proof. apply rel_SameSamples, h_hmc. Qed.
End Shift.
