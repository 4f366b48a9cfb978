(** C65: the exceptions that can leave a valid call of cmaes, vdcma, mcmc or hmc. *)
From Verif Require Import Base Num Env Common DE CPSO NA Mat CMAES VDCMA Sample Hoare EvalRules Gen
  Inst Disc Valid Accept Enough Runs PropPop PropCma Calm Mcmc PropMc.

Section Cal.
  Context {N : Num} {E : Env N}.

  (** [m] raises only exceptions of [X], and returns only values of [Q]. *)
  Definition cal {A} (X : Exn -> Prop) (m : M A) (Q : A -> Prop) : Prop :=
    forall s, match fst (m s) with inl a => Q a | inr e => X e end.

  Lemma cal_ret {A} X (a : A) (Q : A -> Prop) : Q a -> cal X (ret a) Q.
  Proof. intros H s. exact H. Qed.
  Lemma cal_raise {A} (X : Exn -> Prop) e (Q : A -> Prop) : X e -> cal X (raise e) Q.
  Proof. intros H s. exact H. Qed.
  Lemma cal_bind {A B} X (m : M A) (k : A -> M B) (R : A -> Prop) (Q : B -> Prop) :
    cal X m R -> (forall a, R a -> cal X (k a) Q) -> cal X (bind m k) Q.
  Proof.
    intros Hm Hk s. specialize (Hm s). unfold bind. destruct (m s) as [[a|e] s1]; cbn in *; [|exact Hm].
    apply Hk, Hm.
  Qed.
  Lemma cal_conseq {A} (X Y : Exn -> Prop) (m : M A) (Q R : A -> Prop) :
    cal X m Q -> (forall e, X e -> Y e) -> (forall a, Q a -> R a) -> cal Y m R.
  Proof. intros H HX HR s. specialize (H s). destruct (m s) as [[a|e] s1]; cbn in *; auto. Qed.
  Lemma cal_calm {A} (X : Exn -> Prop) (m : M A) (Q : A -> Prop) :
    calm (extra := fun _ => False) m Q -> (forall e, foreign e -> X e) -> cal X m Q.
  Proof. intros H HX s. specialize (H s). destruct (m s) as [[a|e] s1]; cbn in *; intuition. Qed.
  Lemma cal_silent {A} X (m : M A) (Q : A -> Prop) : silent m Q -> cal X m Q.
  Proof. intros H s. destruct (H s) as (a & s' & H1 & _ & H2). rewrite H1. exact H2. Qed.
  Lemma cal_foldM {A B} X (f : A -> B -> M A) (Inv : A -> Prop) (l : list B) a :
    Inv a -> (forall a b, Inv a -> cal X (f a b) Inv) -> cal X (foldM f a l) Inv.
  Proof.
    intros Ha Hf. revert a Ha. induction l as [|b l IH]; intros a Ha; cbn [foldM]; [apply cal_ret, Ha|].
    eapply cal_bind; [apply Hf, Ha|]. intros a' Ha'. apply IH, Ha'.
  Qed.

  (** ** cmaes and vdcma *)
  (** The library's own exceptions: numpy's eigh failed; with Penalize, the minimum of an empty
      list. *)
  Definition cma_exn (pen eig : bool) (e : Exn) : Prop :=
    foreign e \/ (pen = true /\ e = ValueError) \/
    (eig = true /\ e = LinAlgError /\ exists C, e_eigh C = None).

  Lemma foreign_cma pen eig e : foreign e -> cma_exn pen eig e.
  Proof. left; assumption. Qed.
  Hint Resolve foreign_cma : core.

  Lemma cal_cma_eval pen eig P X : EnvOK -> cal (cma_exn pen eig) (cma_eval P X) (fun f => length f = length X).
  Proof.
    intro HE. unfold cma_eval. eapply cal_bind; [eapply cal_calm; [apply calm_eval_pop, EnvOK_mode, HE | auto]|].
    intros [x f] [_ H]. cbn [snd] in H. apply cal_ret. rewrite H. apply map_length.
  Qed.

  Lemma cal_fitness eig P arx xm xo sg dc it pen : EnvOK -> length arx = cm_p P ->
    cal (cma_exn (cm_pen P) eig) (cma_fitness P arx xm xo sg dc it pen)
        (fun r => length (fst (fst r)) = cm_p P /\ length (snd (fst r)) = cm_p P).
  Proof.
    intros HE Ha. unfold cma_fitness. destruct (cm_pen P) eqn:Hp.
    - unfold penalize. cbn zeta. eapply cal_bind; [apply cal_cma_eval, HE|]. intros fit Hf.
      rewrite map_length in Hf.
      eapply cal_bind with (R := fun _ => True).
      + destruct (neqb _ n0).
        * destruct (filter _ _); [apply cal_raise; right; left; auto | apply cal_ret; exact I].
        * destruct (negb _); apply cal_ret; exact I.
      + intros [[delta hist] valid] _. destruct (_ && _); apply cal_ret; cbn [fst snd];
          (split; [rewrite map3_length; change vec with (list T) in *; rewrite !map_length; rewrite Hf, Ha; lia | rewrite map_length; exact Ha]).
    - eapply cal_bind; [apply cal_cma_eval, HE|]. intros fit Hf. apply cal_ret. cbn. split; congruence.
  Qed.

  (** one record per iteration *)
  Definition room1 (p : nat) (no : option Z) : Prop :=
    match no with Some n => (n <= Z.of_nat p)%Z | None => True end.
  Lemma calm_record P it valid fit r : room1 (cm_p P) (cm_nout P) -> (it <= cm_maxiter P)%Z ->
    length valid = cm_p P -> length fit = cm_p P -> calm (extra := fun _ => False) (cma_record P it valid fit r) (fun _ => True).
  Proof.
    intros Hr Hi Hv Hf. unfold cma_record, rec_write.
    destruct (cm_nout P) as [n|], r as [r|]; try (apply calm_ret; exact I).
    eapply (calm_bind _ _ (fun _ => True)); [|intros; apply calm_ret; exact I].
    unfold rec_put. destruct (Z.ltb_spec (cm_maxiter P) it); [lia|].
    destruct (Z.ltb_spec 0 n); [|apply calm_ret; exact I]. cbn [room1] in Hr.
    rewrite !fit_firstn by (rewrite ?map_length; lia). apply calm_ret. exact I.
  Qed.
  Lemma calm_hist_set P it v h : (it <= cm_maxiter P)%Z -> calm (extra := fun _ => False) (hist_set P it v h) (fun _ => True).
  Proof.
    intro H. unfold hist_set. destruct (Z.ltb_spec (cm_maxiter P) it); [lia|]. apply calm_ret; exact I.
  Qed.

  Lemma known_converge it d mx xm xo h af b s is_ il pc xt ft dc BD :
    known it mx (converge it d mx xm xo h af b s is_ il pc xt ft dc BD).
  Proof.
    unfold converge. destruct (Z.leb_spec mx it); [cbn; discriminate|].
    repeat match goal with |- known _ _ (if ?b then _ else _) => destruct b; [cbn; discriminate|] end.
    cbn. assumption.
  Qed.

  Lemma cal_step P it s : EnvOK -> room1 (cm_p P) (cm_nout P) -> (it <= cm_maxiter P)%Z ->
    cal (cma_exn (cm_pen P) true) (cma_step P it s) (fun r => known it (cm_maxiter P) (snd r)).
  Proof.
    intros HE Hr Hi. unfold cma_step. cbv zeta.
    eapply cal_bind with (R := fun arx => length arx = cm_p P).
    { apply cal_silent. unfold cma_sample. eapply silent_replicateM. eapply silent_bind; [apply silent_randn_vec|].
      intros z _. apply (silent_ret _ (fun _ => True)). exact I. }
    intros arx Ha. eapply cal_bind; [apply cal_fitness; assumption|]. intros [[fit valid] pen] [Hf Hv].
    cbn [fst snd] in Hf, Hv.
    eapply cal_bind; [eapply cal_calm; [apply calm_record; assumption | auto]|]. intros r _.
    eapply cal_bind; [eapply cal_calm; [apply calm_hist_set; assumption | auto]|]. intros hist _.
    eapply cal_bind with (R := fun _ => True).
    { destruct (nltb _ _); [|apply cal_ret; exact I].
      destruct (e_eigh _) as [[D B]|] eqn:He.
      - eapply cal_bind; [apply (cal_ret _ (D, B) (fun _ => True)); exact I|]. intros [D' B'] _.
        apply cal_ret; exact I.
      - eapply cal_bind with (R := fun _ => True); [|intros [D' B'] _; apply cal_ret; exact I].
        apply cal_raise. right. right. eauto. }
    intros [[[[B D] C] inv] ee] _. apply cal_ret. apply known_converge.
  Qed.

  Lemma cal_vd_sample X P s : (2 <= cm_p P)%nat -> cal X (vd_sample P s) (fun ary => length ary = cm_p P).
  Proof.
    intro Hp. unfold vd_sample. cbn zeta.
    eapply cal_bind; [apply cal_silent; eapply silent_replicateM, silent_randn_vec|]. intros arz Ha.
    destruct (vs_inj s).
    - eapply cal_bind; [apply cal_silent, silent_randn_vec|]. intros z _.
      destruct (Nat.ltb_spec (cm_p P) 2); [lia|]. eapply cal_bind; [apply (cal_ret _ tt (fun _ => True)); exact I|].
      intros _ _. apply cal_ret. rewrite !upd_length, map_length. exact Ha.
    - apply cal_ret. rewrite map_length. exact Ha.
  Qed.

  Lemma cal_vd_step P it s : EnvOK -> (2 <= cm_p P)%nat -> room1 (cm_p P) (cm_nout P) -> (it <= cm_maxiter P)%Z ->
    cal (cma_exn (cm_pen P) false) (vd_step P it s) (fun r => known it (cm_maxiter P) (snd r)).
  Proof.
    intros HE Hp Hr Hi. unfold vd_step. cbv zeta.
    eapply cal_bind; [apply cal_vd_sample, Hp|]. intros ary Ha.
    eapply cal_bind; [apply cal_fitness; [exact HE | rewrite map_length; exact Ha]|].
    intros [[fit valid] pen] [Hf Hv]. cbn [fst snd] in Hf, Hv.
    eapply cal_bind; [eapply cal_calm; [apply calm_record; assumption | auto]|]. intros r _.
    eapply cal_bind; [eapply cal_calm; [apply calm_hist_set; assumption | auto]|]. intros hist _.
    destruct (vd_sigma _ _ _) as [[ps sigma] cond]. destruct (vd_update _ _ _ _ _ _ _ _ _ _ _ _ _ _ _) as [vvec dvec].
    apply cal_ret. apply known_converge.
  Qed.

  Lemma cal_drive {S} (X : Exn -> Prop) (d : Drv S) mx cb : (forall e, foreign e -> X e) ->
    (forall it s, (it <= mx)%Z -> cal X (d_step d it s) (fun r => known it mx (snd r))) ->
    (forall it s, cal X (d_post d it s) (fun _ => True)) ->
    forall fuel it s, (it < mx)%Z -> cal X (drive d cb fuel it s) (fun _ => True).
  Proof.
    intros HX H1 H2. induction fuel as [|k IH]; intros it s Hi; cbn [drive].
    { intros st. apply HX. right. reflexivity. }
    eapply cal_bind; [apply H1; lia|]. intros [s' o] Ho. cbn [fst snd] in *.
    eapply cal_bind; [eapply cal_calm; [apply calm_when, calm_cb | exact HX]|]. intros _ _.
    destruct o as [c|]; cbn [known] in Ho.
    - unfold result. destruct (message c) as [msg|]; [|congruence].
      eapply cal_bind; [apply (cal_ret _ msg (fun _ => True) I)|]. intros; apply cal_ret; exact I.
    - eapply cal_bind; [apply H2|]. intros s'' _. apply IH. exact Ho.
  Qed.

  (** A call that the documentation allows; [return_all] needs verbosity at most 1. *)
  Record ReadyCMA (A : CMAArgs) : Prop := {
    rc_valid : ValidCMA A;
    rc_dim : (1 <= nd_len (a_bounds (caa A)))%nat;
    rc_mx : (1 <= a_maxiter (caa A))%Z;
    rc_comp : Computable (caa A) (caa_muperc A);
    rc_rec : a_return_all (caa A) = true ->
      exists n, nceilZ (nmul (a_verbosity (caa A)) (nZ (a_popsize (caa A)))) = Some n /\ (n <= a_popsize (caa A))%Z }.

  Definition wants_pen (A : CMAArgs) : bool :=
    match a_constraints (caa A) with Some _ => true | None => false end.

  Lemma cal_setup X A : ReadyCMA A ->
    cal X (cma_setup A) (fun xP => cm_p (snd xP) = Z.to_nat (a_popsize (caa A)) /\
                                   cm_pen (snd xP) = wants_pen A /\ cm_maxiter (snd xP) = a_maxiter (caa A)).
  Proof.
    intros [HV _ _ HC _] s.
    destruct (silent_cma_setup A HV HC s) as (xP & s' & Hx & _). rewrite Hx. cbn [fst].
    unfold cma_setup in Hx. cbn zeta in Hx. unfold bind in Hx.
    repeat match type of Hx with
    | (let (_, _) := ?q in _) = _ => destruct q as [[?|?] ?] eqn:?; try discriminate
    | (let (_, _) := ?q in _) _ = _ => destruct q as [? ?]
    end.
    unfold ret in Hx. injection Hx as <- <-. cbn [snd cm_p cm_pen cm_maxiter]. split; [reflexivity|].
    split; [|reflexivity].
    destruct HV as [_ _ _ _ Hcon _]. unfold wants_pen.
    match goal with H : cma_cons_check _ _ = _ |- _ => revert H end.
    unfold cma_cons_check. destruct Hcon as [<-|[<-|[]]]; cbn; unfold ret; congruence.
  Qed.

  Lemma cal_alloc X A : ReadyCMA A ->
    cal X (cma_alloc (caa A)) (fun r => room1 (Z.to_nat (a_popsize (caa A))) (fst r)).
  Proof.
    intros [_ _ _ [C1 C2 C3 C4 C5] HR]. unfold cma_alloc. cbn zeta.
    eapply cal_bind with (R := room1 (Z.to_nat (a_popsize (caa A)))).
    { unfold rec_alloc. destruct (a_return_all (caa A)); [|apply cal_ret; exact I].
      destruct (HR eq_refl) as (n & Hn & Hle). unfold rec_nout. rewrite Hn.
      eapply cal_bind; [apply (cal_ret _ n (fun k => k = n) eq_refl)|]. intros k ->.
      destruct (Z.ltb_spec (a_maxiter (caa A)) 0); [lia|]. apply cal_ret. cbn. lia. }
    intros nout Hno.
    destruct (Z.ltb_spec (a_maxiter (caa A)) 0); [lia|]. eapply cal_bind; [apply (cal_ret _ tt (fun _ => True) I)|]. intros _ _.
    destruct (Z.eqb_spec (a_popsize (caa A)) 0); [lia|]. eapply cal_bind; [apply (cal_ret _ tt (fun _ => True) I)|]. intros _ _.
    destruct (Z.ltb_spec (a_popsize (caa A)) 0); [lia|]. eapply cal_bind; [apply (cal_ret _ tt (fun _ => True) I)|]. intros _ _.
    destruct (ntrunc (nadd _ _)) as [i|]; [|congruence].
    eapply cal_bind; [apply (cal_ret _ i (fun _ => True) I)|]. intros i' _. apply cal_ret. exact Hno.
  Qed.

  Lemma cal_cmaes A : EnvOK -> ReadyCMA A -> cal (cma_exn (wants_pen A) true) (cmaes_minimize A) (fun _ => True).
  Proof.
    intros HE HR. unfold cmaes_minimize. eapply cal_bind; [apply cal_silent, silent_cma_check, HR|]. intros _ _.
    unfold cmaes. cbn zeta. eapply cal_bind; [apply cal_setup, HR|]. intros [xm P] (H1 & H2 & H3).
    cbn [snd] in H1, H2, H3. eapply cal_bind; [apply cal_alloc, HR|]. intros [nout ilim] Hno. cbn [fst] in Hno.
    rewrite <- H1 in Hno. rewrite <- H2. apply (cal_drive _ _ (a_maxiter (caa A))).
    - intros e He. left. exact He.
    - intros it s Hit. cbn [d_step cma_drv]. rewrite <- H3 in *.
      match goal with |- cal _ (cma_step ?Q _ _) _ => apply (cal_step Q) end; assumption.
    - intros it s. apply cal_ret; exact I.
    - pose proof (rc_mx _ HR). lia.
  Qed.

  Lemma cal_vdcma A : EnvOK -> ReadyCMA A -> (2 <= a_popsize (caa A))%Z ->
    cal (cma_exn (wants_pen A) false) (vdcma_minimize A) (fun _ => True).
  Proof.
    intros HE HR Hp. unfold vdcma_minimize. eapply cal_bind; [apply cal_silent, silent_cma_check, HR|]. intros _ _.
    unfold vdcma. cbn zeta. eapply cal_bind; [apply cal_setup, HR|]. intros [xm P] (H1 & H2 & H3).
    cbn [snd] in H1, H2, H3. eapply cal_bind; [apply cal_silent, silent_randn_vec|]. intros z _.
    eapply cal_bind; [apply cal_alloc, HR|]. intros [nout ilim] Hno. cbn [fst] in Hno.
    rewrite <- H1 in Hno. rewrite <- H2. apply (cal_drive _ _ (a_maxiter (caa A))).
    - intros e He. left. exact He.
    - intros it s Hit. cbn [d_step vd_drv]. rewrite <- H3 in *.
      match goal with |- cal _ (vd_step ?Q _ _) _ => apply (cal_vd_step Q) end; try assumption. cbn [cm_p]. lia.
    - intros it s. apply cal_ret; exact I.
    - pose proof (rc_mx _ HR). lia.
  Qed.

  (** C65: which exceptions can leave cmaes. *)
  Theorem C65_cmaes A w a0 e st' : EnvOK -> ReadyCMA A -> exec (cmaes_minimize A) w a0 = (inr e, st') ->
    (exists n, e = UserError n /\ user_raises n) \/
    (e = LinAlgError /\ exists C, e_eigh C = None) \/
    (e = ValueError /\ a_constraints (caa A) = Some "Penalize"%string).
  Proof.
    intros HE HR Hx. pose proof (cal_cmaes A HE HR (mkSt w [] a0)) as H. unfold exec in Hx. rewrite Hx in H.
    destruct H as [[H| ->] | [[H1 ->] | (_ & -> & H)]]; auto.
    - destruct (C01_terminates_cma (CallCMA A) w a0 st' HE Hx).
    - right. right. split; [reflexivity|]. unfold wants_pen in H1.
      destruct (vm_con _ (rc_valid _ HR)) as [Hc|[Hc|[]]]; rewrite <- Hc in *; [discriminate H1 | reflexivity].
  Qed.
  Theorem C65_vdcma A w a0 e st' : EnvOK -> ReadyCMA A -> (2 <= a_popsize (caa A))%Z ->
    exec (vdcma_minimize A) w a0 = (inr e, st') ->
    (exists n, e = UserError n /\ user_raises n) \/
    (e = ValueError /\ a_constraints (caa A) = Some "Penalize"%string).
  Proof.
    intros HE HR Hp Hx. pose proof (cal_vdcma A HE HR Hp (mkSt w [] a0)) as H. unfold exec in Hx. rewrite Hx in H.
    destruct H as [[H| ->] | [[H1 ->] | (H & _)]].
    - left. exact H.
    - destruct (C01_terminates_cma (CallVD A) w a0 st' HE Hx).
    - right. split; [reflexivity|]. unfold wants_pen in H1. destruct (vm_con _ (rc_valid _ HR)) as [Hc|[Hc|[]]]; rewrite <- Hc in *; [discriminate H1 | reflexivity].
    - discriminate H.
  Qed.

  Theorem C65_cmaes_returns A w a0 : EnvOK -> ReadyCMA A -> a_constraints (caa A) = None ->
    (forall n, ~ user_raises n) -> (forall C, e_eigh C <> None) ->
    exists res st', exec (cmaes_minimize A) w a0 = (inl res, st').
  Proof.
    intros HE HR Hc Hn He. destruct (exec (cmaes_minimize A) w a0) as [[res|e] st'] eqn:Hx; [eauto|].
    destruct (C65_cmaes A w a0 e st' HE HR Hx) as [(n & _ & H) | [(_ & C & H) | (_ & H)]];
      [destruct (Hn n H) | destruct (He C H) | congruence].
  Qed.
  Theorem C65_vdcma_returns A w a0 : EnvOK -> ReadyCMA A -> (2 <= a_popsize (caa A))%Z ->
    a_constraints (caa A) = None -> (forall n, ~ user_raises n) ->
    exists res st', exec (vdcma_minimize A) w a0 = (inl res, st').
  Proof.
    intros HE HR Hp Hc Hn. destruct (exec (vdcma_minimize A) w a0) as [[res|e] st'] eqn:Hx; [eauto|].
    destruct (C65_vdcma A w a0 e st' HE HR Hp Hx) as [(n & _ & H) | (_ & H)]; [destruct (Hn n H) | congruence].
  Qed.
End Cal.

Section Samp.
  Context {N : Num} {E : Env N}.

  (** The objective or the callback of a sampler raises exception [n] on some input. *)
  Definition samp_raises (n : nat) : Prop :=
    (exists x w w', e_fun x w = (inr n, w')) \/ (exists x st w w', e_scb x st w = (Some n, w')).
  Definition samp_exn (rec : bool) (e : Exn) : Prop :=
    (exists n, e = UserError n /\ samp_raises n) \/ (rec = true /\ e = RecursionError).
  (** Whatever else [m] raises, exceptions of the user come from the user. *)
  Definition honest (e : Exn) : Prop := forall n, e = UserError n -> samp_raises n.

  Lemma cal_fun (X : Exn -> Prop) x : (forall n, samp_raises n -> X (UserError n)) -> cal X (call_fun x) (fun _ => True).
  Proof.
    intros HX s. unfold call_fun. destruct (e_fun x (rs s)) as [[y|n] w] eqn:He; cbn; [exact I|].
    apply HX. left. eauto.
  Qed.
  Lemma cal_scb (X : Exn -> Prop) x st : (forall n, samp_raises n -> X (UserError n)) -> cal X (call_scb x st) (fun _ => True).
  Proof.
    intros HX s. unfold call_scb. destruct (e_scb x st (rs s)) as [[n|] w] eqn:He; cbn; [|exact I].
    apply HX. right. eauto 6.
  Qed.
  Lemma cal_when (X : Exn -> Prop) b (m : M unit) : cal X m (fun _ => True) -> cal X (when b m) (fun _ => True).
  Proof. intros H. destruct b; cbn; [exact H | apply cal_ret; exact I]. Qed.

  Section Any.
    Variable X : Exn -> Prop.
    Hypothesis HX : forall n, samp_raises n -> X (UserError n).

    Lemma cal_rand : cal X rand (fun _ => True).
    Proof. intro s. unfold rand, draw. destruct (e_rand _). exact I. Qed.
    Lemma cal_s_cb a c : cal X (s_cb a c) (fun _ => True).
    Proof. unfold s_cb. apply cal_when, cal_scb, HX. Qed.
    Lemma cal_first_cb a x f : cal X (s_first_cb a x f) (fun _ => True).
    Proof. unfold s_first_cb. apply cal_when, cal_scb, HX. Qed.
    Lemma cal_count nf x : cal X (count_fun nf x) (fun _ => True).
    Proof.
      unfold count_fun. eapply cal_bind; [apply cal_fun, HX|]. intros y _. apply cal_ret; exact I.
    Qed.

    Lemma cal_ng h nf x : cal X (numerical_gradient h nf x) (fun _ => True).
    Proof.
      unfold numerical_gradient. eapply cal_bind with (R := fun _ => True).
      - apply cal_foldM; [exact I|]. intros [[[x1 x2] g] k] i _. unfold ng_one.
        eapply cal_bind; [apply cal_count|]. intros [f2 k2] _.
        eapply cal_bind; [apply cal_count|]. intros [f1 k1] _. apply cal_ret; exact I.
      - intros [[[x1 x2] g] k] _. apply cal_ret; exact I.
    Qed.

    Variable jac : JacArg.
    Hypothesis HJ : jac = JacFun -> X RecursionError.
    Lemma cal_jac h nf q : cal X (hmc_jac jac h nf q) (fun _ => True).
    Proof.
      unfold hmc_jac. destruct jac; [apply cal_ng | apply cal_ng | apply cal_raise, HJ, eq_refl].
    Qed.
    Lemma cal_leap_loop h st k : forall q p nf, cal X (leap_loop (hmc_jac jac h) st k q p nf) (fun _ => True).
    Proof.
      induction k as [|k IH]; intros q p nf; cbn [leap_loop]; [apply cal_ret; exact I|].
      eapply cal_bind; [apply cal_jac|]. intros [g nf'] _. apply IH.
    Qed.
    Lemma cal_leapfrog h st k q p nf : cal X (leapfrog (hmc_jac jac h) st k q p nf) (fun _ => True).
    Proof.
      unfold leapfrog. eapply cal_bind; [apply cal_jac|]. intros [g nf'] _. cbn zeta.
      eapply cal_bind; [apply cal_leap_loop|]. intros [[q' p'] nf''] _.
      eapply cal_bind; [apply cal_jac|]. intros [g' nf3] _. apply cal_ret; exact I.
    Qed.
  End Any.

  Lemma cal_hmc_move P (X : Exn -> Prop) : (forall n, samp_raises n -> X (UserError n)) -> (hm_jac P = JacFun -> X RecursionError) ->
    forall cn, ch_f (fst cn) <> [] -> cal X (hmc_move P cn) (fun cn' => ch_f (fst cn') <> []).
  Proof.
    intros HX HJ [c nf] Hc. cbn [fst] in Hc. unfold hmc_move. cbn zeta.
    eapply cal_bind; [apply cal_silent, silent_randn_vec|]. intros p0 _.
    eapply cal_bind; [apply cal_leapfrog; assumption|]. intros [[q p] nf1] _.
    assert (Hrej : ch_f (ch_reject c) <> []) by (cbn; intro H; apply app_eq_nil in H; destruct H; discriminate).
    assert (Hacc : forall x f, ch_f (ch_accept c x f) <> []).
    { intros x f H. unfold ch_accept in H. destruct (nltb _ _); cbn in H; apply app_eq_nil in H; destruct H; discriminate. }
    eapply cal_bind with (R := fun cn' => ch_f (fst cn') <> []).
    - destruct (in_search_space _ _ _ _); [|apply cal_ret, Hrej].
      eapply cal_bind; [apply cal_count, HX|]. intros [u0 k0] _.
      eapply cal_bind; [apply cal_count, HX|]. intros [u1 k1] _.
      eapply cal_bind; [apply cal_rand|]. intros u _. apply cal_ret. cbn [fst].
      destruct (metropolis _ _); auto.
    - intros [c' nf'] H. eapply cal_bind; [apply cal_s_cb, HX|]. intros _ _. apply cal_ret, H.
  Qed.
  Lemma cal_hmc_loop P (X : Exn -> Prop) : (forall n, samp_raises n -> X (UserError n)) -> (hm_jac P = JacFun -> X RecursionError) ->
    forall k cn, ch_f (fst cn) <> [] -> cal X (hmc_loop P k cn) (fun cn' => ch_f (fst cn') <> []).
  Proof.
    intros HX HJ. induction k as [|k IH]; intros cn Hc; cbn [hmc_loop]; [apply cal_ret, Hc|].
    eapply cal_bind; [apply cal_hmc_move; assumption|]. intros cn' H. apply IH, H.
  Qed.

  Lemma cal_hmc A (X : Exn -> Prop) : ValidHM A ->
    (forall n, samp_raises n -> X (UserError n)) -> (hma_jac A = JacFun -> X RecursionError) ->
    cal X (hmc_sample A) (fun _ => True).
  Proof.
    intros [H1 H2 H3] HX HJ. unfold hmc_sample. cbn zeta.
    eapply cal_bind; [apply cal_silent, silent_s_check, H1|]. intros [lo up] HO.
    destruct (Z.ltb_spec (hma_nleap A) 1); [lia|]. eapply cal_bind; [apply (cal_ret _ tt (fun _ => True) I)|]. intros _ _.
    eapply cal_bind; [apply cal_silent, silent_s_steps, H1|]. intros st _.
    eapply cal_bind with (R := fun _ => True).
    { destruct (hma_jac A); [| congruence |]; apply cal_ret; exact I. }
    intros _ _.
    eapply cal_bind; [apply cal_silent, silent_s_seed_cb, H1|]. intros _ _.
    eapply cal_bind; [apply cal_silent, silent_s_first; [exact H1|exact HO]|]. intros x _.
    eapply cal_bind; [apply cal_count, HX|]. intros [f nf] _.
    eapply cal_bind; [apply cal_first_cb, HX|]. intros _ _.
    eapply cal_bind; [apply cal_hmc_loop; [exact HX | exact HJ | discriminate]|]. intros [c nf'] Hc. cbn [fst] in Hc.
    unfold np_argmin. destruct (ch_f c) as [|y l]; [congruence|].
    eapply cal_bind; [apply (cal_ret _ _ (fun _ => True) I)|]. intros idx _. apply cal_ret; exact I.
  Qed.

  (** C65: which exceptions can leave hmc. *)
  Theorem C65_hmc A w a0 e st' : ValidHM A -> exec (hmc_sample A) w a0 = (inr e, st') ->
    (exists n, e = UserError n /\ samp_raises n) \/ (e = RecursionError /\ hma_jac A = JacFun).
  Proof.
    intros HV Hx.
    pose proof (cal_hmc A (fun e => (exists n, e = UserError n /\ samp_raises n) \/ (e = RecursionError /\ hma_jac A = JacFun))
                  HV (fun n Hn => or_introl (ex_intro _ n (conj eq_refl Hn))) (fun HJ => or_intror (conj eq_refl HJ)) (mkSt w [] a0)) as H.
    unfold exec in Hx. rewrite Hx in H. exact H.
  Qed.
  Theorem C65_hmc_returns A w a0 : ValidHM A -> hma_jac A = JacNone -> (forall n, ~ samp_raises n) ->
    exists res st', exec (hmc_sample A) w a0 = (inl res, st').
  Proof.
    intros HV HJ Hn. destruct (exec (hmc_sample A) w a0) as [[res|e] st'] eqn:Hx; [eauto|].
    destruct (C65_hmc A w a0 e st' HV Hx) as [(n & _ & H) | (_ & H)]; [destruct (Hn n H) | congruence].
  Qed.

  (** ** mcmc *)
  Lemma honest_user n : samp_raises n -> honest (UserError n).
  Proof. intros H k [= <-]. exact H. Qed.
  Lemma honest_own e : (forall n, e <> UserError n) -> honest e.
  Proof. intros H n He. destruct (H n He). Qed.
  Lemma cal_if b e : honest e -> cal honest (raise_if b e) (fun _ => True).
  Proof. intro H. destruct b; [apply cal_raise, H | apply cal_ret; exact I]. Qed.

  Lemma cal_mc_move P j c : cal honest (mc_move P j c) (fun _ => True).
  Proof.
    unfold mc_move. eapply cal_bind with (R := fun _ => True).
    { unfold mc_propose. eapply cal_bind; [apply cal_silent, silent_randn_vec|]. intros z _. cbn zeta.
      eapply cal_bind; [apply cal_if, honest_own; discriminate|]. intros _ _. apply cal_ret; exact I. }
    intros y _. eapply cal_bind with (R := fun _ => True).
    { destruct (in_search_space _ _ _ _); [|apply cal_ret; exact I].
      eapply cal_bind; [apply cal_fun, honest_user|]. intros fy _.
      eapply cal_bind; [apply cal_rand|]. intros u _. apply cal_ret; exact I. }
    intros c' _. eapply cal_bind; [apply cal_s_cb, honest_user|]. intros _ _. apply cal_ret; exact I.
  Qed.
  Lemma cal_mc_inner P js : forall c, cal honest (mc_inner P js c) (fun _ => True).
  Proof.
    induction js as [|j js IH]; intro c; cbn [mc_inner]; [apply cal_ret; exact I|].
    eapply cal_bind; [apply cal_mc_move|]. intros c' _. destruct (mc_full P c'); [apply cal_ret; exact I | apply IH].
  Qed.
  Lemma cal_mc_outer P k : forall c, cal honest (mc_outer P k c) (fun _ => True).
  Proof.
    induction k as [|k IH]; intro c; cbn [mc_outer]; (destruct (_ <? _)%Z; [|apply cal_ret; exact I]).
    - apply cal_raise, honest_own. discriminate.
    - eapply cal_bind; [apply cal_mc_inner|]. intros c' _. apply IH.
  Qed.

  Lemma cal_mcmc A : ValidMC A -> cal honest (mcmc_sample A) (fun _ => True).
  Proof.
    intros [H1 H2]. unfold mcmc_sample, mcmc_fuel. cbn zeta.
    eapply cal_bind; [apply cal_silent, silent_s_check, H1|]. intros [lo up] HO.
    eapply cal_bind; [apply cal_silent, silent_s_steps, H1|]. intros st _.
    eapply cal_bind; [apply cal_if, honest_own; discriminate|]. intros _ _.
    eapply cal_bind with (R := fun _ => True).
    { destruct (ntrunc _); [apply cal_ret; exact I | apply cal_raise, honest_own; discriminate]. }
    intros b _. eapply cal_bind; [apply cal_silent, silent_s_seed_cb, H1|]. intros _ _.
    eapply cal_bind; [apply cal_silent, silent_s_first; [exact H1|exact HO]|]. intros x _.
    eapply cal_bind; [apply cal_fun, honest_user|]. intros f _.
    eapply cal_bind; [apply cal_first_cb, honest_user|]. intros _ _.
    eapply cal_bind; [apply cal_mc_outer|]. intros c _. apply cal_ret; exact I.
  Qed.
End Samp.

Section Mc.
  Context {N : Num} {E : Env N} {L : OrdLaws num_arith}.

  (** The blocks of coordinates do not fit, and the chain is long enough to reach the last one. *)
  Definition Misfit (A : MCArgs) : Prop :=
    exists b, block_size A (nd_len (s_bounds (mca A))) b /\ nd_len (s_bounds (mca A)) mod b <> 0 /\
      (1 + Z.of_nat (nd_len (s_bounds (mca A)) / b) < s_maxiter (mca A))%Z.

  (** C65: which exceptions can leave mcmc. *)
  Theorem C65_mcmc A w a0 e st' :
    0 < nd_len (s_bounds (mca A)) -> ValidMC A ->
    ntrunc (nmul (mca_perc A) (nN (nd_len (s_bounds (mca A))))) <> None ->
    exec (mcmc_sample A) w a0 = (inr e, st') ->
    (exists n, e = UserError n /\ samp_raises n) \/ (e = ValueError /\ Misfit A).
  Proof.
    intros Hd HV Hn Hx. destruct (C35_raises A w a0 e st' Hd HV Hn Hx) as [[n ->]|H]; [left | right; exact H].
    exists n. split; [reflexivity|]. pose proof (cal_mcmc A HV (mkSt w [] a0)) as H.
    unfold exec in Hx. rewrite Hx in H. exact (H n eq_refl).
  Qed.
  (** With user code that never raises, mcmc returns exactly if the blocks fit. *)
  Theorem C65_mcmc_returns A w a0 :
    0 < nd_len (s_bounds (mca A)) -> ValidMC A ->
    ntrunc (nmul (mca_perc A) (nN (nd_len (s_bounds (mca A))))) <> None ->
    (forall n, ~ samp_raises n) ->
    (exists res st', exec (mcmc_sample A) w a0 = (inl res, st')) <-> ~ Misfit A.
  Proof.
    intros Hd HV Hn Hu. split.
    - intros (res & st' & Hx) (b & Hb & Hm & Hl).
      destruct (C35_returns A w a0 res st' Hd Hx) as (b' & Hb' & H).
      assert (b' = b) by (destruct Hb as (z & Hz & ->), Hb' as (z' & Hz' & ->); congruence). subst b'.
      destruct H; [contradiction | lia].
    - intro HM. destruct (exec (mcmc_sample A) w a0) as [[res|e] st'] eqn:Hx; [eauto|].
      destruct (C65_mcmc A w a0 e st' Hd HV Hn Hx) as [(n & _ & H) | [_ H]]; [destruct (Hu n H) | contradiction].
  Qed.
End Mc.
