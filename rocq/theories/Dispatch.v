(** minimize and sample as functions of a method name and a dictionary of options (C43), pso as
    cpso without competition (C16), the default callback of na (C45). *)
From Verif Require Import Base Num Env Common DE CPSO NA Mat CMAES VDCMA Sample Call.

Section Dispatch.
  Context {N : Num} {E : Env N}.

  Notation keys := (@map (string * Val) string fst).

  (** ** Spec: a dictionary, its value under a name *)
  Definition Dict (l : list keyword) : Prop := NoDup (keys l).
  Inductive Maps (l : list keyword) (k : string) (d : Val) : Val -> Prop :=
  | maps_in v : In (k, v) l -> Maps l k d v
  | maps_default : ~ In k (keys l) -> Maps l k d d.

  (** The options of each solver, as documented (docstrings of the solvers). *)
  Definition optimizer_options (method : string) : list string :=
    (if method =? "de" then
       ["maxiter"; "popsize"; "mutation"; "recombination"; "strategy"; "seed"; "xtol"; "ftol";
        "constraints"; "updating"; "workers"; "backend"; "return_all"; "verbosity"]
     else if method =? "cpso" then
       ["maxiter"; "popsize"; "inertia"; "cognitivity"; "sociability"; "competitivity"; "seed";
        "xtol"; "ftol"; "constraints"; "updating"; "workers"; "backend"; "return_all"; "verbosity"]
     else if method =? "pso" then
       ["maxiter"; "popsize"; "inertia"; "cognitivity"; "sociability"; "seed"; "xtol"; "ftol";
        "constraints"; "updating"; "workers"; "backend"; "return_all"; "verbosity"]
     else if method =? "na" then
       ["maxiter"; "popsize"; "nrperc"; "seed"; "xtol"; "ftol"; "workers"; "backend"; "return_all";
        "verbosity"]
     else
       ["maxiter"; "popsize"; "sigma"; "muperc"; "seed"; "xtol"; "ftol"; "constraints"; "workers";
        "backend"; "return_all"; "verbosity"])%string.
  Definition sampler_options (method : string) : list string :=
    (if method =? "mcmc" then
       ["maxiter"; "stepsize"; "perc"; "seed"; "constraints"; "return_all"]
     else
       ["maxiter"; "nleap"; "stepsize"; "seed"; "jac"; "finite_diff_abs_step"; "constraints";
        "return_all"])%string.
  Definition methods : list string := ["cmaes"; "cpso"; "de"; "na"; "pso"; "vdcma"]%string.
  Definition samplers : list string := ["mcmc"; "hmc"]%string.

  (** A call that raises [e] at once: nothing is evaluated, no callback, the state is untouched. *)
  Definition Raises {A} (c : option (M A)) (e : Exn) : Prop :=
    exists m, c = Some m /\ forall w a0, exec m w a0 = (inr e, mkSt w [] a0).

  Lemma raises_raise {A} e : Raises (Some (@raise N E A e)) e.
  Proof. exists (raise e). split; [reflexivity|]. intros; reflexivity. Qed.

  (** ** Keywords *)
  Lemma has_key_in k l : has_key k l = true <-> In k (keys l).
  Proof.
    unfold has_key. rewrite existsb_exists. split.
    - intros [[k' v] [H1 H2]]. apply String.eqb_eq in H2. cbn in H2. subst.
      change k with (fst (k, v)). now apply in_map.
    - intros H. apply in_map_iff in H. destruct H as [[k' v] [H1 H2]]. cbn in H1. subst.
      exists (k, v). split; [assumption|]. apply String.eqb_refl.
  Qed.
  Lemma has_key_notin k l : has_key k l = false <-> ~ In k (keys l).
  Proof. rewrite <- has_key_in. destruct (has_key k l); split; congruence. Qed.
  Lemma lookup_none k l : lookup k l = None <-> ~ In k (keys l).
  Proof.
    unfold lookup. induction l as [|[k' v] l IH]; cbn; [split; auto|].
    destruct (String.eqb k' k) eqn:H.
    - apply String.eqb_eq in H. subst. cbn. split; [discriminate|]. intros H. exfalso. apply H. now left.
    - apply String.eqb_neq in H. rewrite IH. split; intros H1; intuition.
  Qed.
  Lemma lookup_some k v l : Dict l -> lookup k l = Some v <-> In (k, v) l.
  Proof.
    unfold lookup, Dict. induction l as [|[k' v'] l IH]; cbn; intros HD.
    - split; [discriminate|tauto].
    - inversion HD as [|a b H1 H2]; subst. destruct (String.eqb k' k) eqn:H.
      + apply String.eqb_eq in H. subst. cbn. split.
        * intros H. injection H as ->. now left.
        * intros [H|H]; [now injection H as ->|]. exfalso. apply H1.
          change k with (fst (k, v)). now apply in_map.
      + apply String.eqb_neq in H. rewrite IH by assumption. split; [now right|].
        intros [H3|H3]; [|assumption]. injection H3 as H3 _. congruence.
  Qed.
  Lemma lookup_app k a b :
    lookup k (a ++ b) = match lookup k a with Some v => Some v | None => lookup k b end.
  Proof.
    unfold lookup. induction a as [|[k' v] a IH]; cbn; [reflexivity|].
    destruct (String.eqb k' k); [reflexivity|assumption].
  Qed.
  Lemma maps_lookup l k d v : Dict l -> Maps l k d v ->
    match lookup k l with Some w => w | None => d end = v.
  Proof.
    intros HD [w H|H].
    - apply lookup_some in H; [|assumption]. now rewrite H.
    - apply lookup_none in H. now rewrite H.
  Qed.

  Lemma take_ok names kw : forall bound,
    Forall (fun k => In k names) (keys kw) -> NoDup (keys (bound ++ kw)) ->
    take_keywords names bound kw = Some (bound ++ kw).
  Proof.
    induction kw as [|[k v] kw IH]; intros bound Hn Hd; cbn [take_keywords].
    - now rewrite app_nil_r.
    - inversion Hn as [|a b H1 H2]; subst. cbn [fst] in H1.
      replace (existsb (String.eqb k) names) with true
        by (symmetry; apply existsb_exists; exists k; split; [assumption|apply String.eqb_refl]).
      rewrite map_app in Hd. cbn [map fst] in Hd.
      replace (has_key k bound) with false; [cbn [negb andb]|].
      + rewrite IH; [now rewrite <- app_assoc|assumption|]. rewrite !map_app. cbn [map fst].
        now rewrite <- app_assoc.
      + symmetry. apply has_key_notin. apply NoDup_remove_2 in Hd. intros H. apply Hd.
        apply in_or_app. now left.
  Qed.
  Lemma take_unknown names kw : forall bound,
    ~ Forall (fun k => In k names) (keys kw) -> take_keywords names bound kw = None.
  Proof.
    induction kw as [|[k v] kw IH]; intros bound Hn; cbn [take_keywords].
    - exfalso. apply Hn. constructor.
    - destruct (existsb (String.eqb k) names) eqn:H; [|reflexivity]. cbn [andb].
      destruct (negb (has_key k bound)); [|reflexivity]. apply IH. intros H1. apply Hn.
      constructor; [|assumption]. apply existsb_exists in H. destruct H as [k' [H2 H3]].
      apply String.eqb_eq in H3. cbn [fst]. now subst.
  Qed.
  Lemma take_twice names kw : forall bound, NoDup (keys bound) ->
    ~ NoDup (keys (bound ++ kw)) -> take_keywords names bound kw = None.
  Proof.
    induction kw as [|[k v] kw IH]; intros bound Hb Hn; cbn [take_keywords].
    - exfalso. apply Hn. now rewrite app_nil_r.
    - destruct (existsb (String.eqb k) names); [|reflexivity]. cbn [andb].
      destruct (has_key k bound) eqn:H; [reflexivity|]. cbn [negb]. apply IH.
      + rewrite map_app. cbn [map fst]. apply has_key_notin in H.
        apply (Permutation_NoDup (l := k :: keys bound)); [apply Permutation_cons_append|].
        now constructor.
      + now rewrite <- app_assoc.
  Qed.
  Lemma fill_defaults_ext sg b1 b2 : (forall k, lookup k b1 = lookup k b2) ->
    fill_defaults sg b1 = fill_defaults sg b2.
  Proof.
    intros H. induction sg as [|[k d] sg IH]; cbn [fill_defaults]; [reflexivity|].
    now rewrite H, IH.
  Qed.
  (** The value of each parameter, when the required ones are given. *)
  Definition filled (sg : Sig) (b : list keyword) : list keyword :=
    map (fun p => (fst p, match lookup (fst p) b with
                          | Some v => v
                          | None => match snd p with Some v => v | None => VOther end
                          end)) sg.
  Lemma fill_defaults_ok sg b :
    Forall (fun p => snd p = None -> lookup (fst p) b <> None) sg ->
    fill_defaults sg b = Some (filled sg b).
  Proof.
    induction sg as [|[k d] sg IH]; intros HF; [reflexivity|].
    inversion HF as [|a c H1 H2]; subst. cbn [fst snd] in H1. cbn [fill_defaults filled map fst snd].
    rewrite IH by assumption. destruct (lookup k b), d; try reflexivity. now destruct H1.
  Qed.

  Lemma lookup_filled k sg b :
    lookup k (filled sg b)
    = match find (fun p => String.eqb (fst p) k) sg with
      | None => None
      | Some p => Some match lookup k b with
                       | Some v => v
                       | None => match snd p with Some v => v | None => VOther end
                       end
      end.
  Proof.
    unfold lookup at 1, filled. induction sg as [|[k' d] sg IH]; [reflexivity|].
    cbn [map find fst snd]. destruct (String.eqb k' k) eqn:H; [|assumption].
    apply String.eqb_eq in H. now subst.
  Qed.

  (** ** The four ways to end a call before the solver runs *)
  Lemma optimizer_map_unknown m : ~ In m methods -> optimizer_map m = None.
  Proof.
    intros H. unfold optimizer_map. cbn [find fst].
    repeat match goal with |- context [String.eqb ?a m] =>
      let Hf := fresh in destruct (String.eqb a m) eqn:Hf; [apply String.eqb_eq in Hf; subst; exfalso; apply H; cbn; tauto|]
    end. reflexivity.
  Qed.
  Lemma sampler_map_unknown m : ~ In m samplers -> sampler_map m = None.
  Proof.
    intros H. unfold sampler_map. cbn [find fst].
    repeat match goal with |- context [String.eqb ?a m] =>
      let Hf := fresh in destruct (String.eqb a m) eqn:Hf; [apply String.eqb_eq in Hf; subst; exfalso; apply H; cbn; tauto|]
    end. reflexivity.
  Qed.

  Theorem C43_unknown_method fn b x0 args method options cb :
    ~ In method methods -> Raises (minimize fn b x0 args method options cb) KeyError.
  Proof. intros H. unfold minimize. rewrite optimizer_map_unknown by assumption. apply raises_raise. Qed.
  Theorem C43_unknown_sampler fn b x0 args method options cb :
    ~ In method samplers -> Raises (sample fn b x0 args method options cb) KeyError.
  Proof. intros H. unfold sample. rewrite sampler_map_unknown by assumption. apply raises_raise. Qed.

  Lemma options_of_sig m o : optimizer_map m = Some o ->
    forall k, In k (map fst (o_sig o)) <->
              In k ["fun"; "bounds"; "x0"; "args"; "callback"]%string \/ In k (optimizer_options m).
  Proof.
    unfold optimizer_map. cbn [find fst]. intros H.
    repeat match type of H with context [String.eqb ?a m] =>
      let Hf := fresh in destruct (String.eqb a m) eqn:Hf;
        [apply String.eqb_eq in Hf; subst; cbn in H; injection H as <-; intros k; cbn; tauto|]
    end. discriminate.
  Qed.
  Lemma options_of_ssig m s : sampler_map m = Some s ->
    forall k, In k (map fst (s_sig s)) <->
              In k ["fun"; "bounds"; "x0"; "args"; "callback"]%string \/ In k (sampler_options m).
  Proof.
    unfold sampler_map. cbn [find fst]. intros H.
    repeat match type of H with context [String.eqb ?a m] =>
      let Hf := fresh in destruct (String.eqb a m) eqn:Hf;
        [apply String.eqb_eq in Hf; subst; cbn in H; injection H as <-; intros k; cbn; tauto|]
    end. discriminate.
  Qed.

  Lemma repeats_in kw opts : repeats kw opts = true <-> exists k, In k (keys kw) /\ In k (keys opts).
  Proof.
    unfold repeats. rewrite existsb_exists. split.
    - intros [p [H1 H2]]. apply has_key_in in H2. exists (fst p). split; [assumption|now apply in_map].
    - intros [k [H1 H2]]. apply in_map_iff in H2. destruct H2 as [p [<- H2]]. exists p.
      split; [assumption|]. now apply has_key_in.
  Qed.

  (** Whatever the name, an option that is not one of the solver's raises TypeError ... *)
  Theorem C43_bad_option fn b x0 args method opts cb k :
    In method methods -> In k (keys opts) -> ~ In k (optimizer_options method) ->
    Raises (minimize fn b x0 args method (Some opts) cb) TypeError.
  Proof.
    intros Hm Hk Hn. unfold minimize. destruct (optimizer_map method) as [o|] eqn:Ho.
    2:{ exfalso. cbn in Hm. decompose [or] Hm; subst; discriminate || assumption. }
    destruct (repeats _ opts) eqn:Hr; [apply raises_raise|].
    unfold call_optimizer, bind_args.
    replace ((length (o_sig o) <? length (@nil Val))%nat) with false
      by (symmetry; apply Nat.ltb_ge; cbn; lia).
    replace (combine (map fst (o_sig o)) []) with (@nil keyword) by now rewrite combine_nil.
    rewrite take_unknown; [apply raises_raise|].
    intros HF. rewrite Forall_forall in HF. specialize (HF k).
    destruct (options_of_sig method o Ho k) as [H1 _].
    destruct H1 as [H1|H1]; [apply HF; rewrite map_app; apply in_or_app; now right| |contradiction].
    assert (Hr' : repeats (five fn b x0 args cb) opts = true)
      by (apply repeats_in; exists k; split; [exact H1|assumption]).
    congruence.
  Qed.
  Theorem C43_bad_sampler_option fn b x0 args method opts cb k :
    In method samplers -> In k (keys opts) -> ~ In k (sampler_options method) ->
    Raises (sample fn b x0 args method (Some opts) cb) TypeError.
  Proof.
    intros Hm Hk Hn. unfold sample. destruct (sampler_map method) as [o|] eqn:Ho.
    2:{ exfalso. cbn in Hm. decompose [or] Hm; subst; discriminate || assumption. }
    destruct (repeats _ opts) eqn:Hr; [apply raises_raise|].
    unfold call_sampler, bind_args.
    replace ((length (s_sig o) <? length (@nil Val))%nat) with false
      by (symmetry; apply Nat.ltb_ge; cbn; lia).
    replace (combine (map fst (s_sig o)) []) with (@nil keyword) by now rewrite combine_nil.
    rewrite take_unknown; [apply raises_raise|].
    intros HF. rewrite Forall_forall in HF. specialize (HF k).
    destruct (options_of_ssig method o Ho k) as [H1 _].
    destruct H1 as [H1|H1]; [apply HF; rewrite map_app; apply in_or_app; now right| |contradiction].
    assert (Hr' : repeats (five fn b x0 args cb) opts = true)
      by (apply repeats_in; exists k; split; [exact H1|assumption]).
    congruence.
  Qed.

  (** No options and an empty dictionary of options are the same. *)
  Theorem C43_no_options fn b x0 args method cb :
    minimize fn b x0 args method None cb = minimize fn b x0 args method (Some []) cb
    /\ sample fn b x0 args method None cb = sample fn b x0 args method (Some []) cb.
  Proof. split; reflexivity. Qed.

  (** ** The call that reaches the solver *)
  Definition Known (method : string) (opts : list keyword) : Prop :=
    Dict opts /\ Forall (fun k => In k (optimizer_options method)) (keys opts).
  Definition SKnown (method : string) (opts : list keyword) : Prop :=
    Dict opts /\ Forall (fun k => In k (sampler_options method)) (keys opts).

  Lemma five_not_option m k : In k ["fun"; "bounds"; "x0"; "args"; "callback"]%string ->
    ~ In k (optimizer_options m).
  Proof.
    intros Hk. unfold optimizer_options.
    repeat match goal with |- context [String.eqb m ?a] => destruct (String.eqb m a) end;
      cbn in Hk; decompose [or] Hk; subst; try contradiction; cbn;
      intros H; decompose [or] H; try discriminate; assumption.
  Qed.
  Lemma five_not_soption m k : In k ["fun"; "bounds"; "x0"; "args"; "callback"]%string ->
    ~ In k (sampler_options m).
  Proof.
    intros Hk. unfold sampler_options.
    repeat match goal with |- context [String.eqb m ?a] => destruct (String.eqb m a) end;
      cbn in Hk; decompose [or] Hk; subst; try contradiction; cbn;
      intros H; decompose [or] H; try discriminate; assumption.
  Qed.

  Lemma five_dict fn b x0 args cb opts :
    Dict opts -> (forall k, In k ["fun"; "bounds"; "x0"; "args"; "callback"]%string -> ~ In k (keys opts)) ->
    Dict (five fn b x0 args cb ++ opts) /\ repeats (five fn b x0 args cb) opts = false.
  Proof.
    intros HD Hd. split.
    - unfold Dict. rewrite map_app. unfold five. cbn [map fst app].
      repeat constructor; try (cbn; intros H; decompose [or] H; try discriminate; revert H0);
        try exact HD;
        try (cbn; intros HH; repeat (destruct HH as [HH|HH]; [discriminate|]); revert HH; apply Hd; cbn; tauto).
    - destruct (repeats _ _) eqn:H; [|reflexivity]. apply repeats_in in H.
      destruct H as [k [H1 H2]]. exfalso. revert H2. apply Hd. exact H1.
  Qed.

  (** The parameters of the solver, when [minimize] reaches it. *)
  Lemma minimize_reaches method o fn b x0 args cb opts :
    optimizer_map method = Some o -> Known method opts ->
    minimize fn b x0 args method (Some opts) cb
    = run_optimizer o (filled (o_sig o) (five fn b x0 args cb ++ opts)).
  Proof.
    intros Ho [HD HK]. rewrite Forall_forall in HK.
    destruct (five_dict fn b x0 args cb opts HD) as [H1 H2].
    { intros k Hk H. exact (five_not_option method k Hk (HK k H)). }
    unfold minimize. rewrite Ho, H2. unfold call_optimizer, bind_args.
    replace ((length (o_sig o) <? length (@nil Val))%nat) with false
      by (symmetry; apply Nat.ltb_ge; cbn; lia).
    rewrite combine_nil. rewrite take_ok.
    - cbn [app]. rewrite fill_defaults_ok; [reflexivity|].
      destruct o; cbn; repeat constructor; cbn; congruence.
    - apply Forall_forall. intros k Hk. apply (options_of_sig method o Ho). rewrite map_app in Hk.
      apply in_app_or in Hk. destruct Hk as [Hk|Hk]; [left; exact Hk|right; now apply HK].
    - exact H1.
  Qed.
  Lemma sample_reaches method o fn b x0 args cb opts :
    sampler_map method = Some o -> SKnown method opts ->
    sample fn b x0 args method (Some opts) cb
    = run_sampler o (filled (s_sig o) (five fn b x0 args cb ++ opts)).
  Proof.
    intros Ho [HD HK]. rewrite Forall_forall in HK.
    destruct (five_dict fn b x0 args cb opts HD) as [H1 H2].
    { intros k Hk H. exact (five_not_soption method k Hk (HK k H)). }
    unfold sample. rewrite Ho, H2. unfold call_sampler, bind_args.
    replace ((length (s_sig o) <? length (@nil Val))%nat) with false
      by (symmetry; apply Nat.ltb_ge; cbn; lia).
    rewrite combine_nil. rewrite take_ok.
    - cbn [app]. rewrite fill_defaults_ok; [reflexivity|].
      destruct o; cbn; repeat constructor; cbn; congruence.
    - apply Forall_forall. intros k Hk. apply (options_of_ssig method o Ho). rewrite map_app in Hk.
      apply in_app_or in Hk. destruct Hk as [Hk|Hk]; [left; exact Hk|right; now apply HK].
    - exact H1.
  Qed.

  (** ** C43: the call of [minimize] is the direct call of the solver *)
  Theorem C43_direct fn b x0 args cb method o opts :
    optimizer_map method = Some o -> Known method opts ->
    minimize fn b x0 args method (Some opts) cb
    = call_optimizer o [fn; b; x0; args] (opts ++ [("callback"%string, cb)]).
  Proof.
    intros Ho HK. rewrite (minimize_reaches method o) by assumption.
    destruct HK as [HD HK]. rewrite Forall_forall in HK.
    unfold call_optimizer, bind_args.
    replace ((length (o_sig o) <? length [fn; b; x0; args])%nat) with false
      by (symmetry; apply Nat.ltb_ge; destruct o; cbn; lia).
    replace (combine (map fst (o_sig o)) [fn; b; x0; args])
      with [("fun", fn); ("bounds", b); ("x0", x0); ("args", args)]%string
      by (destruct o; reflexivity).
    assert (Hd : Dict ([("fun", fn); ("bounds", b); ("x0", x0); ("args", args)]%string
                       ++ opts ++ [("callback"%string, cb)])).
    { destruct (five_dict fn b x0 args cb opts HD) as [H1 _].
      { intros k Hk H. exact (five_not_option method k Hk (HK k H)). }
      unfold Dict in *. eapply Permutation_NoDup; [|exact H1]. apply Permutation_map.
      unfold five. cbn [app]. do 4 constructor. apply Permutation_cons_append. }
    rewrite take_ok; [|apply Forall_forall; intros k Hk; apply (options_of_sig method o Ho);
      rewrite map_app in Hk; apply in_app_or in Hk; destruct Hk as [Hk|Hk];
      [right; now apply HK|left; cbn in Hk; destruct Hk as [<-|[]]; cbn; tauto]|exact Hd].
    rewrite (fill_defaults_ext _ _ (five fn b x0 args cb ++ opts)).
    - rewrite fill_defaults_ok; [reflexivity|]. destruct o; cbn; repeat constructor; cbn; congruence.
    - intros k. rewrite !lookup_app.
      assert (Hc : lookup "callback" opts = None).
      { apply lookup_none. intros H. exact (five_not_option method "callback" ltac:(cbn; tauto) (HK _ H)). }
      remember (lookup k opts) as L eqn:HL. unfold five, lookup. cbn [find fst snd].
      destruct (String.eqb "fun" k); [reflexivity|]. destruct (String.eqb "bounds" k); [reflexivity|].
      destruct (String.eqb "x0" k); [reflexivity|]. destruct (String.eqb "args" k); [reflexivity|].
      cbn [option_map snd]. destruct (String.eqb "callback" k) eqn:Hk; cbn [option_map snd].
      + apply String.eqb_eq in Hk. subst k. now rewrite HL, Hc.
      + now destruct L.
  Qed.

  Theorem C43_direct_sampler fn b x0 args cb method o opts :
    sampler_map method = Some o -> SKnown method opts ->
    sample fn b x0 args method (Some opts) cb
    = call_sampler o [fn; b; x0; args] (opts ++ [("callback"%string, cb)]).
  Proof.
    intros Ho HK. rewrite (sample_reaches method o) by assumption.
    destruct HK as [HD HK]. rewrite Forall_forall in HK.
    unfold call_sampler, bind_args.
    replace ((length (s_sig o) <? length [fn; b; x0; args])%nat) with false
      by (symmetry; apply Nat.ltb_ge; destruct o; cbn; lia).
    replace (combine (map fst (s_sig o)) [fn; b; x0; args])
      with [("fun", fn); ("bounds", b); ("x0", x0); ("args", args)]%string
      by (destruct o; reflexivity).
    assert (Hd : Dict ([("fun", fn); ("bounds", b); ("x0", x0); ("args", args)]%string
                       ++ opts ++ [("callback"%string, cb)])).
    { destruct (five_dict fn b x0 args cb opts HD) as [H1 _].
      { intros k Hk H. exact (five_not_soption method k Hk (HK k H)). }
      unfold Dict in *. eapply Permutation_NoDup; [|exact H1]. apply Permutation_map.
      unfold five. cbn [app]. do 4 constructor. apply Permutation_cons_append. }
    rewrite take_ok; [|apply Forall_forall; intros k Hk; apply (options_of_ssig method o Ho);
      rewrite map_app in Hk; apply in_app_or in Hk; destruct Hk as [Hk|Hk];
      [right; now apply HK|left; cbn in Hk; destruct Hk as [<-|[]]; cbn; tauto]|exact Hd].
    rewrite (fill_defaults_ext _ _ (five fn b x0 args cb ++ opts)).
    - rewrite fill_defaults_ok; [reflexivity|]. destruct o; cbn; repeat constructor; cbn; congruence.
    - intros k. rewrite !lookup_app.
      assert (Hc : lookup "callback" opts = None).
      { apply lookup_none. intros H. exact (five_not_soption method "callback" ltac:(cbn; tauto) (HK _ H)). }
      remember (lookup k opts) as L eqn:HL. unfold five, lookup. cbn [find fst snd].
      destruct (String.eqb "fun" k); [reflexivity|]. destruct (String.eqb "bounds" k); [reflexivity|].
      destruct (String.eqb "x0" k); [reflexivity|]. destruct (String.eqb "args" k); [reflexivity|].
      cbn [option_map snd]. destruct (String.eqb "callback" k) eqn:Hk; cbn [option_map snd].
      + apply String.eqb_eq in Hk. subst k. now rewrite HL, Hc.
      + now destruct L.
  Qed.

  (** ** C43: every option reaches the parameter of its name, the others have their documented
      defaults *)
  (** [Is A l k d a]: under [k] (default [d]) the dictionary has a Python value for [a]. *)
  Class Python (A : Type) := py : A -> Val -> Prop.
  Local Instance py_Z : Python Z := fun z v => v = VInt z.
  Local Instance py_T : Python T := fun x v => v = VFloat x \/ exists z, v = VInt z /\ x = nZ z.
  Local Instance py_str : Python string := fun s v => v = VStr s.
  Local Instance py_bool : Python bool := fun b v => v = VBool b.
  Local Instance py_opt {A} (p : Python A) : Python (option A) :=
    fun o v => match o with None => v = VNone | Some a => py a v end.
  Local Instance py_cb : Python CbArg :=
    fun c v => match c with
               | CbNone => v = VNone | CbFun => v = VFun | CbBad => v <> VNone /\ v <> VFun
               end.
  Local Instance py_jac : Python JacArg :=
    fun c v => match c with
               | JacNone => v = VNone | JacFun => v = VFun | JacBad => v <> VNone /\ v <> VFun
               end.
  Definition Is {A} {p : Python A} (l : list keyword) (k : string) (d : Val) (a : A) : Prop :=
    exists v, Maps l k d v /\ py a v.

  Definition FunIs (c : bool) (v : Val) : Prop := c = true <-> v = VFun.
  Definition BoundsAre (x : nd) (v : Val) : Prop := v = VArr x \/ v = VSeq x.
  Definition X0Is (x : option nd) (array : bool) (v : Val) : Prop :=
    match x with
    | None => v = VNone /\ array = true
    | Some x => if array then v = VArr x else v = VSeq x
    end.
  Definition StepIs (x : nd) (array : bool) (v : Val) : Prop :=
    if array then v = VArr x
    else v = VSeq x \/ match x with
                       | D0 y => v = VFloat y \/ exists z, v = VInt z /\ y = nZ z
                       | _ => False
                       end.

  Record Shared (fn b x0 cb : Val) (opts : list keyword) (a : Args) : Prop := {
    sh_fun : FunIs (a_callable a) fn;
    sh_bounds : BoundsAre (a_bounds a) b;
    sh_x0 : X0Is (a_x0 a) (a_x0_array a) x0;
    sh_maxiter : Is opts "maxiter" (VInt 100) (a_maxiter a);
    sh_popsize : Is opts "popsize" (VInt 10) (a_popsize a);
    sh_seed : Is opts "seed" VNone (a_seed a);
    sh_xtol : Is opts "xtol" (VFloat (nlit 1 (-8))) (a_xtol a);
    sh_ftol : Is opts "ftol" (VFloat (nlit 1 (-8))) (a_ftol a);
    sh_cons : Is opts "constraints" VNone (a_constraints a);
    sh_workers : Is opts "workers" (VInt 1) (a_workers a);
    sh_backend : Is opts "backend" VNone (a_backend a);
    sh_all : Is opts "return_all" (VBool false) (a_return_all a);
    sh_verb : Is opts "verbosity" (VFloat (nlit 1 0)) (a_verbosity a);
    sh_cb : py (a_callback a) cb }.
  Record SShared (fn b x0 cb : Val) (step : Val) (opts : list keyword) (a : SArgs) : Prop := {
    sm_fun : FunIs (s_callable a) fn;
    sm_bounds : BoundsAre (s_bounds a) b;
    sm_x0 : exists r, X0Is (s_x0 a) r x0;
    sm_maxiter : Is opts "maxiter" (VInt 100) (s_maxiter a);
    sm_step : exists v, Maps opts "stepsize" step v /\ StepIs (s_stepsize a) (s_stepsize_array a) v;
    sm_seed : Is opts "seed" VNone (s_seed a);
    sm_cons : Is opts "constraints" VNone (s_constraints a);
    sm_all : Is opts "return_all" (VBool true) (s_return_all a);
    sm_cb : py (s_callback a) cb }.

  Lemma as_int_py z v : py z v -> as_int v = Some z.
  Proof. intros H. now rewrite H. Qed.
  Lemma as_num_py x v : py x v -> as_num v = Some x.
  Proof. intros [H|[z [H1 H2]]]; subst; reflexivity. Qed.
  Lemma as_opt_num_py x v : py x v -> as_opt_num v = Some x.
  Proof.
    destruct x as [x|]; intros H; [|now rewrite H].
    destruct H as [H|[z [H1 H2]]]; subst; reflexivity.
  Qed.
  Lemma as_opt_int_py x v : py x v -> as_opt_int v = Some x.
  Proof. destruct x as [x|]; intros H; now rewrite H. Qed.
  Lemma as_str_py x v : py x v -> as_str v = Some x.
  Proof. intros H; now rewrite H. Qed.
  Lemma as_opt_str_py x v : py x v -> as_opt_str v = Some x.
  Proof. destruct x as [x|]; intros H; now rewrite H. Qed.
  Lemma as_bool_py x v : py x v -> as_bool v = Some x.
  Proof. intros H; now rewrite H. Qed.
  Lemma as_cb_py x v : py x v -> as_cb v = x.
  Proof. destruct x; cbn; intros H; try now rewrite H. destruct v; cbn; tauto || reflexivity. Qed.
  Lemma as_jac_py x v : py x v -> as_jac v = x.
  Proof. destruct x; cbn; intros H; try now rewrite H. destruct v; cbn; tauto || reflexivity. Qed.
  Lemma callable_is c v : FunIs c v -> callable v = c.
  Proof.
    intros H. destruct c, v; cbn; try reflexivity; exfalso; destruct H as [H1 H2];
      try (specialize (H1 eq_refl)); try (specialize (H2 eq_refl)); discriminate.
  Qed.
  Lemma as_array_is x v : BoundsAre x v -> as_array v = Some x.
  Proof. intros [-> | ->]; reflexivity. Qed.
  Lemma as_x0_is x r v : X0Is x r v -> as_x0 v = Some (x, r).
  Proof. destruct x; cbn; [destruct r; intros ->; reflexivity|]. intros [-> ->]. reflexivity. Qed.
  Lemma as_step_is x r v : StepIs x r v -> as_step v = Some (x, r).
  Proof.
    unfold StepIs. destruct r; [intros ->; reflexivity|].
    intros [->|H]; [reflexivity|]. destruct x; try contradiction.
    destruct H as [->|[z [-> ->]]]; reflexivity.
  Qed.

  Section Values.
    Variables (fn b x0 args cb : Val) (opts : list keyword) (sg : Sig).
    Hypothesis HD : Dict opts.
    Notation e := (filled sg (five fn b x0 args cb ++ opts)).
    Notation param k := (find (fun p => String.eqb (fst p) k) sg).

    Lemma arg_opt A (p : Python A) k d (a : A) :
      param k = Some (k, Some d) -> lookup k (five fn b x0 args cb) = None ->
      Is opts k d a -> py a (arg e k).
    Proof.
      intros H1 H2 [v [H3 H4]]. unfold arg. rewrite lookup_filled, H1, lookup_app, H2. cbn [snd].
      now rewrite (maps_lookup opts k d v).
    Qed.
    Lemma arg_five k v d :
      param k = Some (k, d) -> lookup k (five fn b x0 args cb) = Some v -> arg e k = v.
    Proof. intros H1 H2. unfold arg. rewrite lookup_filled, H1, lookup_app, H2. reflexivity. Qed.

    Hypothesis Hhead : forallb (fun k => existsb (String.eqb k) (map fst sg)) (keys (five fn b x0 args cb)) = true.
    Lemma arg_head k v : lookup k (five fn b x0 args cb) = Some v -> arg e k = v.
    Proof.
      intros H. destruct (param k) as [[k' d]|] eqn:Hp.
      - assert (k' = k) by (apply find_some in Hp; now apply String.eqb_eq). subst.
        eapply arg_five; eassumption.
      - exfalso. rewrite forallb_forall in Hhead.
        assert (Hk : In k (keys (five fn b x0 args cb))).
        { destruct (in_dec string_dec k (keys (five fn b x0 args cb))) as [|Hn]; [assumption|].
          apply lookup_none in Hn. congruence. }
        apply Hhead in Hk. apply existsb_exists in Hk. destruct Hk as [k' [H1 H2]].
        apply String.eqb_eq in H2. subst k'. apply in_map_iff in H1. destruct H1 as [p [H1 H2]].
        apply (find_none _ _ Hp) in H2. rewrite H1, String.eqb_refl in H2. discriminate.
    Qed.

    (** The shared parameters. *)
    Lemma mk_args_ok a : Shared fn b x0 cb opts a ->
      param "maxiter" = Some ("maxiter", Some (VInt 100))%string ->
      param "popsize" = Some ("popsize", Some (VInt 10))%string ->
      param "seed" = Some ("seed", Some VNone)%string ->
      param "xtol" = Some ("xtol", Some (VFloat (nlit 1 (-8))))%string ->
      param "ftol" = Some ("ftol", Some (VFloat (nlit 1 (-8))))%string ->
      param "constraints" = Some ("constraints", Some VNone)%string
      \/ param "constraints" = None /\ a_constraints a = None ->
      param "workers" = Some ("workers", Some (VInt 1))%string ->
      param "backend" = Some ("backend", Some VNone)%string ->
      param "return_all" = Some ("return_all", Some (VBool false))%string ->
      param "verbosity" = Some ("verbosity", Some (VFloat (nlit 1 0)))%string ->
      mk_args e = Some a.
    Proof.
      intros [] H1 H2 H3 H4 H5 H6 H7 H8 H9 H10. unfold mk_args.
      rewrite (arg_head "bounds" b eq_refl), (arg_head "x0" x0 eq_refl), (arg_head "fun" fn eq_refl),
        (arg_head "callback" cb eq_refl).
      rewrite (as_array_is _ _ sh_bounds0), (as_x0_is _ _ _ sh_x1). cbn [obind].
      rewrite (as_int_py _ _ (arg_opt _ _ _ _ _ H1 eq_refl sh_maxiter0)),
        (as_int_py _ _ (arg_opt _ _ _ _ _ H2 eq_refl sh_popsize0)),
        (as_opt_int_py _ _ (arg_opt _ _ _ _ _ H3 eq_refl sh_seed0)),
        (as_num_py _ _ (arg_opt _ _ _ _ _ H4 eq_refl sh_xtol0)),
        (as_num_py _ _ (arg_opt _ _ _ _ _ H5 eq_refl sh_ftol0)),
        (as_int_py _ _ (arg_opt _ _ _ _ _ H7 eq_refl sh_workers0)),
        (as_opt_str_py _ _ (arg_opt _ _ _ _ _ H8 eq_refl sh_backend0)),
        (as_bool_py _ _ (arg_opt _ _ _ _ _ H9 eq_refl sh_all0)),
        (as_num_py _ _ (arg_opt _ _ _ _ _ H10 eq_refl sh_verb0)).
      assert (Hc : as_opt_str (arg_or VNone e "constraints") = Some (a_constraints a)).
      { destruct H6 as [H6|[H6 H6']].
        - apply as_opt_str_py. pose proof (arg_opt _ _ _ _ _ H6 eq_refl sh_cons0) as H.
          unfold arg, arg_or in *. rewrite lookup_filled, H6 in *. exact H.
        - unfold arg_or. rewrite lookup_filled, H6, H6'. reflexivity. }
      rewrite Hc. cbn [obind fst snd].
      rewrite (callable_is _ _ sh_fun0), (as_cb_py _ _ sh_cb0). now destruct a.
    Qed.
    Lemma mk_sargs_ok step a : SShared fn b x0 cb step opts a ->
      param "maxiter" = Some ("maxiter", Some (VInt 100))%string ->
      param "stepsize" = Some ("stepsize", Some step)%string ->
      param "seed" = Some ("seed", Some VNone)%string ->
      param "constraints" = Some ("constraints", Some VNone)%string ->
      param "return_all" = Some ("return_all", Some (VBool true))%string ->
      mk_sargs e = Some a.
    Proof.
      intros [] H1 H2 H3 H4 H5. unfold mk_sargs.
      rewrite (arg_head "bounds" b eq_refl), (arg_head "x0" x0 eq_refl), (arg_head "fun" fn eq_refl),
        (arg_head "callback" cb eq_refl).
      destruct sm_x1 as [r Hr]. destruct sm_step0 as [v [Hv1 Hv2]].
      rewrite (as_array_is _ _ sm_bounds0), (as_x0_is _ _ _ Hr). cbn [obind].
      replace (arg e "stepsize") with v.
      2:{ unfold arg. rewrite lookup_filled, H2, lookup_app. cbn [lookup five find fst snd option_map].
          symmetry. exact (maps_lookup opts _ _ _ HD Hv1). }
      rewrite (as_int_py _ _ (arg_opt _ _ _ _ _ H1 eq_refl sm_maxiter0)),
        (as_step_is _ _ _ Hv2),
        (as_opt_int_py _ _ (arg_opt _ _ _ _ _ H3 eq_refl sm_seed0)),
        (as_opt_str_py _ _ (arg_opt _ _ _ _ _ H4 eq_refl sm_cons0)),
        (as_bool_py _ _ (arg_opt _ _ _ _ _ H5 eq_refl sm_all0)).
      cbn [obind fst snd].
      rewrite (callable_is _ _ sm_fun0), (as_cb_py _ _ sm_cb0). now destruct a.
    Qed.
  End Values.

  Lemma given fn b x0 args cb opts sg A (p : Python A) k d (a : A) :
    Dict opts -> Is opts k d a ->
    find (fun p => String.eqb (fst p) k) sg = Some (k, Some d) ->
    lookup k (five fn b x0 args cb) = None ->
    py a (arg (filled sg (five fn b x0 args cb ++ opts)) k).
  Proof. intros HD H H1 H2. exact (arg_opt _ _ _ _ _ _ _ HD _ _ _ _ _ H1 H2 H). Qed.

  Theorem C43_de fn b x0 args opts cb A : Known "de" opts ->
    Shared fn b x0 cb opts (dea A) ->
    Is opts "mutation" (VFloat (nlit 5 (-1))) (dea_mutation A) ->
    Is opts "recombination" (VFloat (nlit 9 (-1))) (dea_recombination A) ->
    Is opts "strategy" (VStr "best1bin") (dea_strategy A) ->
    Is opts "updating" (VStr "immediate") (dea_updating A) ->
    minimize fn b x0 args "de" (Some opts) cb = Some (de_minimize A).
  Proof.
    intros HK HS H1 H2 H3 H4. rewrite (minimize_reaches "de" O_de) by (reflexivity || assumption).
    destruct HK as [HD _]. cbn [run_optimizer o_sig].
    rewrite (mk_args_ok _ _ _ _ _ _ sig_de HD eq_refl _ HS) by (reflexivity || (left; reflexivity)).
    cbn [obind].
    rewrite (as_num_py _ _ (given fn b x0 args cb opts sig_de _ _ _ _ _ HD H1 eq_refl eq_refl)),
      (as_num_py _ _ (given fn b x0 args cb opts sig_de _ _ _ _ _ HD H2 eq_refl eq_refl)),
      (as_str_py _ _ (given fn b x0 args cb opts sig_de _ _ _ _ _ HD H3 eq_refl eq_refl)),
      (as_str_py _ _ (given fn b x0 args cb opts sig_de _ _ _ _ _ HD H4 eq_refl eq_refl)).
    now destruct A.
  Qed.
  Theorem C43_cpso fn b x0 args opts cb A : Known "cpso" opts ->
    Shared fn b x0 cb opts (pa A) ->
    Is opts "inertia" (VFloat (nlit 7298 (-4))) (pa_inertia A) ->
    Is opts "cognitivity" (VFloat (nlit 149618 (-5))) (pa_cognitivity A) ->
    Is opts "sociability" (VFloat (nlit 149618 (-5))) (pa_sociability A) ->
    Is opts "competitivity" (VFloat (nlit 1 0)) (pa_competitivity A) ->
    Is opts "updating" (VStr "immediate") (pa_updating A) ->
    minimize fn b x0 args "cpso" (Some opts) cb = Some (cpso_minimize A).
  Proof.
    intros HK HS H1 H2 H3 H4 H5. rewrite (minimize_reaches "cpso" O_cpso) by (reflexivity || assumption).
    destruct HK as [HD _]. cbn [run_optimizer o_sig]. unfold run_cpso.
    rewrite (mk_args_ok _ _ _ _ _ _ sig_cpso HD eq_refl _ HS) by (reflexivity || (left; reflexivity)).
    cbn [obind].
    rewrite (as_num_py _ _ (given fn b x0 args cb opts sig_cpso _ _ _ _ _ HD H1 eq_refl eq_refl)),
      (as_num_py _ _ (given fn b x0 args cb opts sig_cpso _ _ _ _ _ HD H2 eq_refl eq_refl)),
      (as_num_py _ _ (given fn b x0 args cb opts sig_cpso _ _ _ _ _ HD H3 eq_refl eq_refl)),
      (as_opt_num_py _ _ (given fn b x0 args cb opts sig_cpso _ _ _ _ _ HD H4 eq_refl eq_refl)),
      (as_str_py _ _ (given fn b x0 args cb opts sig_cpso _ _ _ _ _ HD H5 eq_refl eq_refl)).
    now destruct A.
  Qed.
  Theorem C43_na fn b x0 args opts cb A : Known "na" opts ->
    Shared fn b x0 cb opts (naa A) ->
    Is opts "nrperc" (VFloat (nlit 5 (-1))) (naa_nrperc A) ->
    minimize fn b x0 args "na" (Some opts) cb = Some (na_minimize A).
  Proof.
    intros HK HS H1. rewrite (minimize_reaches "na" O_na) by (reflexivity || assumption).
    destruct HK as [HD HK]. cbn [run_optimizer o_sig].
    rewrite (mk_args_ok _ _ _ _ _ _ sig_na HD eq_refl _ HS); try reflexivity.
    - cbn [obind].
      rewrite (as_num_py _ _ (given fn b x0 args cb opts sig_na _ _ _ _ _ HD H1 eq_refl eq_refl)).
      now destruct A.
    - right. split; [reflexivity|]. destruct (sh_cons _ _ _ _ _ _ HS) as [v [H2 H3]].
      destruct H2 as [v H2|H2].
      + exfalso. rewrite Forall_forall in HK. specialize (HK "constraints"%string (in_map fst _ _ H2)).
        cbn in HK. repeat (destruct HK as [HK|HK]; [discriminate|]). exact HK.
      + cbn in H3. destruct (a_constraints (naa A)); [discriminate|reflexivity].
  Qed.
  Theorem C43_cmaes fn b x0 args opts cb A : Known "cmaes" opts ->
    Shared fn b x0 cb opts (caa A) ->
    Is opts "sigma" (VFloat (nlit 1 (-1))) (caa_sigma A) ->
    Is opts "muperc" (VFloat (nlit 5 (-1))) (caa_muperc A) ->
    minimize fn b x0 args "cmaes" (Some opts) cb = Some (cmaes_minimize A).
  Proof.
    intros HK HS H1 H2. rewrite (minimize_reaches "cmaes" O_cmaes) by (reflexivity || assumption).
    destruct HK as [HD _]. cbn [run_optimizer o_sig].
    rewrite (mk_args_ok _ _ _ _ _ _ sig_cma HD eq_refl _ HS) by (reflexivity || (left; reflexivity)).
    cbn [obind].
    rewrite (as_num_py _ _ (given fn b x0 args cb opts sig_cma _ _ _ _ _ HD H1 eq_refl eq_refl)),
      (as_num_py _ _ (given fn b x0 args cb opts sig_cma _ _ _ _ _ HD H2 eq_refl eq_refl)).
    now destruct A.
  Qed.
  Theorem C43_vdcma fn b x0 args opts cb A : Known "vdcma" opts ->
    Shared fn b x0 cb opts (caa A) ->
    Is opts "sigma" (VFloat (nlit 1 (-1))) (caa_sigma A) ->
    Is opts "muperc" (VFloat (nlit 5 (-1))) (caa_muperc A) ->
    minimize fn b x0 args "vdcma" (Some opts) cb = Some (vdcma_minimize A).
  Proof.
    intros HK HS H1 H2. rewrite (minimize_reaches "vdcma" O_vdcma) by (reflexivity || assumption).
    destruct HK as [HD _]. cbn [run_optimizer o_sig].
    rewrite (mk_args_ok _ _ _ _ _ _ sig_cma HD eq_refl _ HS) by (reflexivity || (left; reflexivity)).
    cbn [obind].
    rewrite (as_num_py _ _ (given fn b x0 args cb opts sig_cma _ _ _ _ _ HD H1 eq_refl eq_refl)),
      (as_num_py _ _ (given fn b x0 args cb opts sig_cma _ _ _ _ _ HD H2 eq_refl eq_refl)).
    now destruct A.
  Qed.
  Theorem C43_mcmc fn b x0 args opts cb A : SKnown "mcmc" opts ->
    SShared fn b x0 cb (VFloat (nlit 1 (-1))) opts (mca A) ->
    Is opts "perc" (VFloat (nlit 1 0)) (mca_perc A) ->
    sample fn b x0 args "mcmc" (Some opts) cb = Some (mcmc_sample A).
  Proof.
    intros HK HS H1. rewrite (sample_reaches "mcmc" S_mcmc) by (reflexivity || assumption).
    destruct HK as [HD _]. cbn [run_sampler s_sig].
    rewrite (mk_sargs_ok _ _ _ _ _ _ sig_mcmc HD eq_refl _ _ HS) by reflexivity.
    cbn [obind].
    rewrite (as_num_py _ _ (given fn b x0 args cb opts sig_mcmc _ _ _ _ _ HD H1 eq_refl eq_refl)).
    now destruct A.
  Qed.
  Theorem C43_hmc fn b x0 args opts cb A : SKnown "hmc" opts ->
    SShared fn b x0 cb (VFloat (nlit 1 (-2))) opts (hma A) ->
    Is opts "nleap" (VInt 10) (hma_nleap A) ->
    Is opts "jac" VNone (hma_jac A) ->
    Is opts "finite_diff_abs_step" (VFloat (nlit 1 (-4))) (hma_fd A) ->
    sample fn b x0 args "hmc" (Some opts) cb = Some (hmc_sample A).
  Proof.
    intros HK HS H1 H2 H3. rewrite (sample_reaches "hmc" S_hmc) by (reflexivity || assumption).
    destruct HK as [HD _]. cbn [run_sampler s_sig].
    rewrite (mk_sargs_ok _ _ _ _ _ _ sig_hmc HD eq_refl _ _ HS) by reflexivity.
    cbn [obind].
    rewrite (as_int_py _ _ (given fn b x0 args cb opts sig_hmc _ _ _ _ _ HD H1 eq_refl eq_refl)),
      (as_jac_py _ _ (given fn b x0 args cb opts sig_hmc _ _ _ _ _ HD H2 eq_refl eq_refl)),
      (as_num_py _ _ (given fn b x0 args cb opts sig_hmc _ _ _ _ _ HD H3 eq_refl eq_refl)).
    now destruct A.
  Qed.

  (** ** C43 for pso, and C16 *)
  Lemma positional v1 v2 v3 v4 v5 v6 v7 v8 v9 v10 v11 v12 v13 v14 v15 v16 v17 v18 v19 v20 :
    bind_args sig_cpso [v1; v2; v3; v4; v5; v6; v7; v8; v9; v10; v11; v12; v13; v14; v15; v16; v17;
                        v18; v19; v20] []
    = Some (combine (map fst sig_cpso)
                    [v1; v2; v3; v4; v5; v6; v7; v8; v9; v10; v11; v12; v13; v14; v15; v16; v17;
                     v18; v19; v20]).
  Proof. reflexivity. Qed.

  (** The body of pso in terms of its own parameters. *)
  Lemma run_pso e : lookup "constraints" e <> None ->
    run_optimizer O_pso e
    = obind (mk_args e) (fun a =>
      obind (as_num (arg e "inertia")) (fun w => obind (as_num (arg e "cognitivity")) (fun c1 =>
      obind (as_num (arg e "sociability")) (fun c2 => obind (as_str (arg e "updating")) (fun u =>
      Some (cpso_minimize (mkCPSOArgs a w c1 c2 None u))))))).
  Proof.
    intros Hc. cbn [run_optimizer]. rewrite positional. unfold run_cpso, mk_args.
    unfold arg_or. set (ec := combine _ _).
    change (arg ec "bounds") with (arg e "bounds"). change (arg ec "x0") with (arg e "x0").
    change (arg ec "maxiter") with (arg e "maxiter"). change (arg ec "popsize") with (arg e "popsize").
    change (arg ec "seed") with (arg e "seed"). change (arg ec "xtol") with (arg e "xtol").
    change (arg ec "ftol") with (arg e "ftol"). change (arg ec "workers") with (arg e "workers").
    change (arg ec "backend") with (arg e "backend").
    change (arg ec "return_all") with (arg e "return_all").
    change (arg ec "verbosity") with (arg e "verbosity"). change (arg ec "fun") with (arg e "fun").
    change (arg ec "callback") with (arg e "callback").
    change (arg ec "inertia") with (arg e "inertia").
    change (arg ec "cognitivity") with (arg e "cognitivity").
    change (arg ec "sociability") with (arg e "sociability").
    change (arg ec "updating") with (arg e "updating").
    change (arg ec "competitivity") with VNone.
    change (lookup "constraints" ec) with (Some (arg e "constraints")).
    assert (Hc' : arg e "constraints"
                  = match lookup "constraints" e with Some v => v | None => VNone end).
    { unfold arg. now destruct (lookup "constraints" e). }
    rewrite Hc'. reflexivity.
  Qed.

  Theorem C43_pso fn b x0 args opts cb A : Known "pso" opts ->
    Shared fn b x0 cb opts (psa A) ->
    Is opts "inertia" (VFloat (nlit 7298 (-4))) (psa_inertia A) ->
    Is opts "cognitivity" (VFloat (nlit 149618 (-5))) (psa_cognitivity A) ->
    Is opts "sociability" (VFloat (nlit 149618 (-5))) (psa_sociability A) ->
    Is opts "updating" (VStr "immediate") (psa_updating A) ->
    minimize fn b x0 args "pso" (Some opts) cb = Some (pso_minimize A).
  Proof.
    intros HK HS H1 H2 H3 H4. rewrite (minimize_reaches "pso" O_pso) by (reflexivity || assumption).
    destruct HK as [HD _]. cbn [o_sig]. rewrite run_pso by (rewrite lookup_filled; discriminate).
    rewrite (mk_args_ok _ _ _ _ _ _ sig_pso HD eq_refl _ HS) by (reflexivity || (left; reflexivity)).
    cbn [obind].
    rewrite (as_num_py _ _ (given fn b x0 args cb opts sig_pso _ _ _ _ _ HD H1 eq_refl eq_refl)),
      (as_num_py _ _ (given fn b x0 args cb opts sig_pso _ _ _ _ _ HD H2 eq_refl eq_refl)),
      (as_num_py _ _ (given fn b x0 args cb opts sig_pso _ _ _ _ _ HD H3 eq_refl eq_refl)),
      (as_str_py _ _ (given fn b x0 args cb opts sig_pso _ _ _ _ _ HD H4 eq_refl eq_refl)).
    now destruct A.
  Qed.

  (** A competitivity that switches the restarts off. *)
  Definition Off (g : option T) : Prop :=
    match g with
    | None => True
    | Some g => neqb g n0 = true /\ outside (nZ 0) g (nZ 2) = false
    end.
  Lemma off_same a w c1 c2 g u : Off g ->
    cpso_minimize (mkCPSOArgs a w c1 c2 g u) = cpso_minimize (mkCPSOArgs a w c1 c2 None u).
  Proof.
    destruct g as [g|]; [|reflexivity]. intros [H1 H2]. unfold cpso_minimize.
    cbn [pa pa_inertia pa_cognitivity pa_sociability pa_competitivity pa_updating].
    rewrite H2. unfold cpso. replace (truthy (Some g)) with (@None T); [reflexivity|].
    cbn [truthy]. now rewrite H1.
  Qed.

  (** pso is cpso with a competitivity that switches the restarts off: the two calls are the same
      program, or both are outside the model, or both raise TypeError. *)
  Definition SameCall {A} (c1 c2 : option (M A)) : Prop :=
    match c1, c2 with
    | Some m1, Some m2 => forall w a0, exec m1 w a0 = exec m2 w a0
    | None, None => True
    | _, _ => False
    end.

  Lemma same_raises {A} (c1 c2 : option (M A)) e : Raises c1 e -> Raises c2 e -> SameCall c1 c2.
  Proof. intros [m1 [-> H1]] [m2 [-> H2]] w a0. now rewrite H1, H2. Qed.
  Lemma same_refl {A} (c : option (M A)) : SameCall c c.
  Proof. destruct c; cbn; auto. Qed.

  Lemma known_cpso opts v : ~ In "competitivity"%string (keys opts) ->
    Known "pso" opts -> Known "cpso" (("competitivity"%string, v) :: opts).
  Proof.
    intros Hn [HD HK]. split.
    - unfold Dict. cbn [map fst]. now constructor.
    - cbn [map fst]. constructor; [cbn; tauto|]. eapply Forall_impl; [|exact HK].
      intros k Hk. cbn in Hk |- *. tauto.
  Qed.

  Theorem C16_pso_is_cpso fn b x0 args opts cb v g :
    Dict opts -> ~ In "competitivity"%string (keys opts) ->
    py g v -> Off g ->
    SameCall (minimize fn b x0 args "pso" (Some opts) cb)
             (minimize fn b x0 args "cpso" (Some (("competitivity"%string, v) :: opts)) cb).
  Proof.
    intros HD Hc Hv Ho.
    destruct (Forall_dec (fun k => In k (optimizer_options "pso"))
                (fun k => in_dec string_dec k (optimizer_options "pso")) (keys opts)) as [HK|HK].
    - assert (HK1 : Known "pso" opts) by now split.
      rewrite (minimize_reaches "pso" O_pso) by (reflexivity || assumption).
      rewrite (minimize_reaches "cpso" O_cpso) by (reflexivity || now apply known_cpso).
      cbn [o_sig]. rewrite run_pso by (rewrite lookup_filled; discriminate).
      cbn [run_optimizer]. unfold run_cpso.
      set (e := filled sig_pso (five fn b x0 args cb ++ opts)).
      set (e' := filled sig_cpso (five fn b x0 args cb ++ ("competitivity"%string, v) :: opts)).
      assert (HL : forall k, find (fun p => String.eqb (fst p) k) sig_cpso
                             = find (fun p => String.eqb (fst p) k) sig_pso ->
                             String.eqb "competitivity" k = false ->
                             lookup k e' = lookup k e).
      { intros k H1 H2. unfold e, e'. rewrite !lookup_filled, H1, !lookup_app.
        unfold lookup at 2. cbn [find fst]. rewrite H2. reflexivity. }
      assert (HA : forall k, find (fun p => String.eqb (fst p) k) sig_cpso
                             = find (fun p => String.eqb (fst p) k) sig_pso ->
                             String.eqb "competitivity" k = false -> arg e' k = arg e k).
      { intros k H1 H2. unfold arg. now rewrite HL. }
      assert (Hm : mk_args e' = mk_args e).
      { unfold mk_args, arg_or. rewrite !HA, HL by reflexivity. reflexivity. }
      rewrite Hm, (HA "inertia"%string), (HA "cognitivity"%string), (HA "sociability"%string),
        (HA "updating"%string) by reflexivity.
      replace (arg e' "competitivity") with v.
      2:{ unfold arg, e'. rewrite lookup_filled, lookup_app. reflexivity. }
      rewrite (as_opt_num_py _ _ Hv).
      destruct (mk_args e) as [a|]; [|exact I]. cbn [obind].
      destruct (as_num (arg e "inertia")) as [w|]; [|exact I]. cbn [obind].
      destruct (as_num (arg e "cognitivity")) as [c1|]; [|exact I]. cbn [obind].
      destruct (as_num (arg e "sociability")) as [c2|]; [|exact I]. cbn [obind].
      destruct (as_str (arg e "updating")) as [u|]; [|exact I]. cbn [obind].
      rewrite (off_same a w c1 c2 g u Ho). apply same_refl.
    - rewrite <- Exists_Forall_neg in HK by (intros k; destruct (in_dec string_dec k (optimizer_options "pso")); tauto).
      apply Exists_exists in HK. destruct HK as [k [H1 H2]].
      eapply same_raises; eapply (C43_bad_option _ _ _ _ _ _ _ k).
      + cbn; tauto.
      + assumption.
      + assumption.
      + cbn; tauto.
      + cbn [map fst]. now right.
      + intros H. apply H2. cbn in H |- *.
        assert (k <> "competitivity"%string) by (intros ->; contradiction).
        assert ("competitivity"%string <> k) by congruence. tauto.
  Qed.

  (** ** C45 *)
  Lemma mk_args_fun_cb e a : mk_args e = Some a ->
    a_callable a = callable (arg e "fun") /\ a_callback a = as_cb (arg e "callback").
  Proof.
    unfold mk_args.
    repeat match goal with |- obind ?o _ = _ -> _ => destruct o; cbn [obind]; [|discriminate] end.
    intros H. injection H as <-. split; reflexivity.
  Qed.
  Lemma na_bad_callback A w a0 :
    a_callable (naa A) = true -> a_callback (naa A) = CbBad ->
    exists s, exec (na_minimize A) w a0 = (inr ValueError, s) /\ tr s = [].
  Proof.
    intros H1 H2. unfold exec, na_minimize, check_pop, bind, raise_if, raise, ret. rewrite H1.
    cbn [negb].
    repeat (match goal with |- context [if ?c then _ else _] => destruct c end;
            [eexists; split; reflexivity|]).
    unfold seed_and_cb, bind, raise_if, raise, seed. rewrite H2.
    destruct (a_seed (naa A)); eexists; split; reflexivity.
  Qed.

  (** The direct call na(fun, bounds, ...) without a callback. *)
  Theorem C45_direct_na b opts m :
    Dict opts -> Forall (fun k => In k ("x0" :: "args" :: optimizer_options "na")%string) (keys opts) ->
    call_optimizer O_na [VFun; b] opts = Some m ->
    forall w a0, exists s, exec m w a0 = (inr ValueError, s) /\ tr s = [].
  Proof.
    intros HD HK. rewrite Forall_forall in HK. unfold call_optimizer, bind_args.
    change (length (o_sig O_na) <? length [VFun; b])%nat with false.
    change (combine (map fst (o_sig O_na)) [VFun; b]) with [("fun", VFun); ("bounds", b)]%string.
    assert (Hn : forall k, In k ["fun"; "bounds"; "callback"]%string -> ~ In k (keys opts)).
    { intros k Hk H. apply HK in H. cbn in Hk, H.
      decompose [or] Hk; subst; try contradiction;
        repeat (destruct H as [H|H]; [discriminate|]); exact H. }
    cbv iota. rewrite take_ok.
    - rewrite fill_defaults_ok by (cbn; repeat constructor; cbn; congruence).
      cbn [o_sig run_optimizer]. set (e := filled _ _).
      assert (Hf : arg e "fun" = VFun) by reflexivity.
      assert (Hcb : arg e "callback" = VBool true).
      { unfold arg, e. rewrite lookup_filled, lookup_app.
        change (lookup "callback" [("fun", VFun); ("bounds", b)]%string) with (@None Val).
        cbv iota. rewrite (proj2 (lookup_none "callback" opts) (Hn "callback"%string ltac:(cbn; tauto))). reflexivity. }
      destruct (mk_args e) as [a|] eqn:Ha; [|discriminate]. cbn [obind].
      destruct (as_num (arg e "nrperc")) as [nr|]; [|discriminate]. cbn [obind].
      intros Hm. injection Hm as <-. apply mk_args_fun_cb in Ha. rewrite Hf, Hcb in Ha.
      destruct Ha as [H1 H2]. intros w a0. now apply na_bad_callback.
    - apply Forall_forall. intros k Hk. apply HK in Hk. cbn in Hk |- *. tauto.
    - rewrite map_app. cbn [map fst app].
      constructor; [intros [H|H]; [discriminate|revert H; apply Hn; cbn; tauto]|].
      constructor; [apply Hn; cbn; tauto|exact HD].
  Qed.
End Dispatch.
