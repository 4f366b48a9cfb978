(** C68 for the eight entry points. *)
From Verif Require Import Base Num Env Common DE CPSO NA Mat CMAES VDCMA Sample Hoare EvalRules Disc Draws.

(** ** What each algorithm draws *)
Section Plan.
  Context {N : Num}.

  (** the initial population: nothing if it is given, a Latin hypercube otherwise *)
  Definition first_pop (x0 : option nd) (p d : nat) : list Use :=
    match x0 with Some _ => [] | None => times (p * d) [URand] ++ times d [UPerm p] end.
  (** a generation of differential evolution *)
  Definition de_gen (sync random : bool) (p d : nat) : list Use :=
    times (p * d) [URand] ++
    if sync
    then times p [UPerm (p - 1)] ++ times p [UInt d] ++
         (if random then times (p * d) [URand] else [])
    else times p ([UPerm (p - 1); UInt d] ++ if random then times d [URand] else []).
  (** a move of a swarm *)
  Definition pso_gen (p d : nat) : list Use := times (p * d) [URand] ++ times (p * d) [URand].
  (** one number per new point and per variable that is not fixed *)
  Definition na_gen (p : nat) (b : nd) : list Use :=
    times (p * length (filter (fun r => nltb n0 (nsub (nth 1 r n0) (nth 0 r n0))) (nd_rows b))) [URand].
  Definition first_mean (x0 : option nd) (d : nat) : list Use :=
    match x0 with Some _ => [] | None => times d [URand] end.
  Definition cma_gen (p d : nat) : list Use := times (p * d) [UNormal].
  (** from the second generation on one more vector, for the injected points *)
  Definition vd_gen (p d : nat) (it : Z) : list Use :=
    times (p * d) [UNormal] ++ if (it <=? 1)%Z then [] else times d [UNormal].

  (** the uniform number of the acceptance test; see C36 for 'Reject' *)
  Definition accept_use (c : option string) : list Use :=
    if match c with Some s => String.eqb s "Reject" | None => false end then [] else [URand].
  Definition block_len (perc : T) (d : nat) : nat :=
    match ntrunc (nmul perc (nN d)) with Some k => Z.to_nat (Z.max 1 k) | None => 1 end.
  Definition mcmc_move (perc : T) (d : nat) (c : option string) : list Use :=
    times (block_len perc d) [UNormal] ++ accept_use c.
  Definition hmc_step (d : nat) (c : option string) : list Use := times d [UNormal] ++ accept_use c.

  (** the particles that a restart after iteration [it] draws anew *)
  Definition restarted (p : nat) (it maxiter : Z) (g : T) : option Z :=
    ntrunc (ndiv (nsub (nN p) n1)
      (nadd n1 (nexp (nmul (ndiv n1 (nlit 9 (-2)))
                           (nadd (nsub (ndiv (nZ it) (nZ maxiter)) g) (nlit 5 (-1))))))).
  (** a competitivity of 0 counts as none *)
  Definition competes (g : option T) : option T :=
    match g with Some x => if neqb x n0 then None else Some x | None => None end.
  Definition restart_uses (p d : nat) (maxiter : Z) (g : option T) (it : Z) (us : list Use) : Prop :=
    us = [] \/
    exists g' k, g = Some g' /\ restarted p it maxiter g' = Some k /\ (0 < k)%Z /\
                 us = times (Z.to_nat k * d) [URand].

  Definition popn (a : Args) : nat := Z.to_nat (a_popsize a).
  Definition dimn (a : Args) : nat := nd_len (a_bounds a).
  Definition is_random (c : option string) : bool :=
    match c with Some s => String.eqb s "Random" | None => false end.
End Plan.

Section Alg.
  Context {N : Num} {E : Env N}.
  Hypothesis HG : Gentle.

  Lemma seed_cb_inv a s u s' :
    seed_and_cb a s = (inl u, s') -> fst (rs s') = begin (a_seed a) (fst (rs s)).
  Proof.
    intros H. apply bind_inv in H. destruct H as (x & s1 & H1 & H2).
    destruct (dry_raise_if _ _ _ _ _ H2) as (us & K & -> & _). rewrite K.
    destruct (a_seed a); injection H1 as <- <-; reflexivity.
  Qed.
  Lemma s_seed_cb_inv a s u s' :
    s_seed_cb a s = (inl u, s') -> fst (rs s') = begin (s_seed a) (fst (rs s)).
  Proof.
    intros H. apply bind_inv in H. destruct H as (x & s1 & H1 & H2).
    destruct (dry_raise_if _ _ _ _ _ H2) as (us & K & -> & _). rewrite K.
    destruct (s_seed a); injection H1 as <- <-; reflexivity.
  Qed.
  (** A call: checks, seeding, work. *)
  Lemma dry_inv {A} (m : M A) (Q : A -> Prop) s a s' :
    takes m [] Q -> m s = (inl a, s') -> fst (rs s') = fst (rs s) /\ Q a.
  Proof. intros H Hs. destruct (H _ _ _ Hs) as (us & K & -> & HQ). auto. Qed.

  Lemma takes_check_pop a :
    takes (check_pop a) [] (fun _ => ndim_is 2 (a_bounds a) = true /\ (2 <= a_popsize a)%Z /\
      forall x, a_x0 a = Some x -> length (nd_rows x) = popn a).
  Proof.
    unfold check_pop. eapply dry_bind; [apply dry_raise_if|]. intros _ _.
    eapply dry_bind; [apply dry_raise_if|]. intros ? HB. eapply dry_bind; [apply dry_raise_if|]. intros ? H1.
    eapply dry_bind; [apply dry_raise_if|]. intros ? H2. eapply takes_weaken; [apply dry_raise_if|].
    intros ? H3. apply negb_false_iff in HB. apply Z.ltb_ge in H2. split; [exact HB|]. split; [exact H2|].
    intros x Hx. rewrite Hx in *.
    apply orb_false_iff in H1. destruct H1 as [H1 _]. apply negb_false_iff in H1, H3.
    destruct x as [x|x|c x]; try discriminate. apply Z.eqb_eq in H3. cbn [nd_len nd_rows] in *.
    unfold popn. lia.
  Qed.

  Lemma takes_first_pop a lower upper :
    (forall x, a_x0 a = Some x -> length (nd_rows x) = popn a) ->
    takes (match a_x0 a with Some x => ret (nd_rows x)
                           | None => lhs (Z.to_nat (a_popsize a)) (nd_len (a_bounds a)) lower upper end)
          (first_pop (a_x0 a) (popn a) (dimn a)) (fun X => length X = popn a).
  Proof.
    intros H. destruct (a_x0 a) as [x|]; [apply takes_ret, H; reflexivity|apply takes_lhs].
  Qed.

  (** *** Differential evolution *)
  Lemma takes_np_randint d : takes (np_randint d) [UInt d] (fun _ => True).
  Proof. destruct d; [apply eats_raise|apply takes_randint]. Qed.
  Lemma takes_delete_shuffle p i : takes (delete_shuffle p i) [UPerm (p - 1)] (fun _ => True).
  Proof. eapply takes_end; [apply takes_perm|]. intros a _. apply takes_ret. exact I. Qed.
  Definition rnd (c : DECons) : bool := match c with DERandom => true | DENone => false end.
  Lemma takes_de_cons c lower upper u d : length lower = d -> length upper = d ->
    takes (de_cons c lower upper u) (if rnd c then times d [URand] else []) (fun _ => True).
  Proof.
    intros H1 H2. destruct c; cbn; [apply takes_ret; exact I|].
    eapply takes_end; [apply takes_uniform_vec; eassumption|]. intros r _. apply takes_ret. exact I.
  Qed.

  Definition DI (P : DEParams) (s : DES) : Prop :=
    length (des_X s) = de_p P /\ length (des_pbestfit s) = de_p P.

  Lemma takes_de_cands P r1 X gb :
    length (de_lower P) = de_d P -> length (de_upper P) = de_d P ->
    length r1 = de_p P -> length X = de_p P ->
    takes (de_cands P r1 X gb)
      (times (de_p P) [UPerm (de_p P - 1)] ++ times (de_p P) [UInt (de_d P)] ++
       (if rnd (de_con P) then times (de_p P * de_d P) [URand] else []))
      (fun U => length U = de_p P).
  Proof.
    intros HL HU Hr HX. unfold de_cands.
    eapply takes_bind.
    { replace (times (de_p P) [UPerm (de_p P - 1)])
        with (times (length (seq 0 (de_p P))) [UPerm (de_p P - 1)]) by (rewrite seq_length; reflexivity).
      apply takes_mapM. intros i. apply takes_delete_shuffle. }
    intros iss [Li _]. rewrite seq_length in Li.
    eapply dry_bind; [apply dry_mapM; intros i; eapply takes_weaken; [apply dry_orelse|]; auto|].
    intros V HV. rewrite Li in HV.
    eapply takes_bind; [apply takes_replicateM, takes_np_randint|]. intros ir [Hi _].
    set (rows := map3 _ _ _ _).
    assert (LR : length rows = de_p P).
    { unfold rows. rewrite map3_length, combine_length. change vec with (list T) in *. lia. }
    replace (if rnd (de_con P) then times (de_p P * de_d P) [URand] else [])
      with (times (length rows) (if rnd (de_con P) then times (de_d P) [URand] else [])).
    2: { rewrite LR. destruct (rnd (de_con P)); [apply times_mul|apply times_nil]. }
    eapply takes_weaken; [apply takes_mapM; intros u; apply takes_de_cons; eassumption|].
    intros U [H _]. rewrite H. exact LR.
  Qed.

  Lemma takes_de_sync P it r1 s : MpiShape ->
    length (de_lower P) = de_d P -> length (de_upper P) = de_d P -> length r1 = de_p P -> DI P s ->
    takes (de_sync P it r1 s)
      (times (de_p P) [UPerm (de_p P - 1)] ++ times (de_p P) [UInt (de_d P)] ++
       (if rnd (de_con P) then times (de_p P * de_d P) [URand] else []))
      (fun q => DI P (fst q)).
  Proof.
    intros HM HL HU Hr [D1 D2]. unfold de_sync. eapply takes_end; [apply takes_de_cands; auto|].
    intros U HUl. eapply dry_bind; [apply dry_selection_sync, dry_eval; exact HG|]. intros sel Hs.
    destruct (Hs HM (eq_trans D1 (eq_sym HUl)) (eq_trans D2 (eq_sym HUl))) as [K1 K2].
    eapply dry_bind; [apply dry_when, dry_set_arg|]. intros _ _. apply takes_ret.
    exact (conj (eq_trans K1 HUl) (eq_trans K2 HUl)).
  Qed.

  Lemma takes_de_async_one P r1 acc i :
    length (de_lower P) = de_d P -> length (de_upper P) = de_d P -> DI P (fst acc) ->
    takes (de_async_one P r1 acc i)
      ([UPerm (de_p P - 1); UInt (de_d P)] ++ if rnd (de_con P) then times (de_d P) [URand] else [])
      (fun q => DI P (fst q)).
  Proof.
    intros HL HU [D1 D2]. unfold de_async_one. eapply takes_end.
    - unfold de_cand1. eapply (takes_bind _ _ [UPerm (de_p P - 1)]); [apply takes_delete_shuffle|]. intros is _.
      eapply dry_bind; [apply dry_orelse|]. intros V _.
      eapply (takes_bind _ _ [UInt (de_d P)]); [apply takes_np_randint|]. intros ir _.
      apply takes_de_cons; assumption.
    - intros u _. eapply dry_bind; [apply dry_selection_async; exact HG|]. intros sel [K1 K2].
      eapply dry_bind; [apply dry_when, dry_set_arg|]. intros _ _. apply takes_ret.
      exact (conj (eq_trans K1 D1) (eq_trans K2 D2)).
  Qed.

  Lemma takes_de_step P sync it s : MpiShape ->
    length (de_lower P) = de_d P -> length (de_upper P) = de_d P -> DI P s ->
    takes (de_step P sync it s) (de_gen sync (rnd (de_con P)) (de_p P) (de_d P)) (fun q => DI P (fst q)).
  Proof.
    intros HM HL HU HI. unfold de_step, de_gen. eapply takes_bind; [apply takes_rand_mat|]. intros r1 Hr.
    eapply dry_bind; [apply dry_raise_if|]. intros _ _. eapply (takes_end _ _ _ (fun q => DI P (fst q))).
    - destruct sync; [apply takes_de_sync; assumption|]. unfold de_async.
      eapply (takes_end _ _ _ (fun q => DI P (fst q))).
      + set (U := _ ++ _).
        replace (times (de_p P) U) with (times (length (seq 0 (de_p P))) U) by (rewrite seq_length; reflexivity).
        apply (takes_foldM _ U (fun q => DI P (fst q))); [|exact HI]. intros acc i Ha. apply takes_de_async_one; assumption.
      + intros [s1 st] H1. apply takes_ret. exact H1.
    - intros [s1 st] [D1 D2]. eapply dry_bind; [apply dry_rec_write|]. intros r _. apply takes_ret. split; cbn; assumption.
  Qed.

  Lemma eats_de a sync F CR st : MpiShape ->
    (forall x, a_x0 a = Some x -> length (nd_rows x) = popn a) ->
    eats (de a sync F CR st)
      (fun r us => (1 < r_nit r)%Z /\
        us = first_pop (a_x0 a) (popn a) (dimn a) ++
             times (Z.to_nat (r_nit r - 1)) (de_gen sync (is_random (a_constraints a)) (popn a) (dimn a))).
  Proof.
    intros HM HX. unfold de. eapply eats_dry; [apply dry_eval_kindM|]. intros mode _.
    eapply eats_dry; [apply dry_unpack|]. intros [lower upper] [HL HU]. cbn [fst snd] in HL, HU.
    eapply eats_dry; [apply dry_orelse|]. intros con HC.
    assert (KR : rnd con = is_random (a_constraints a)).
    { cbn beta in HC. unfold de_cons_map, is_random in *. destruct (a_constraints a) as [c|].
      - destruct (String.eqb c "Random"); [injection HC as <-; reflexivity|discriminate].
      - injection HC as <-. reflexivity. }
    eapply eats_take; [apply takes_first_pop; exact HX|]. intros X LX.
    eapply eats_dry; [apply dry_raise_if|]. intros _ _.
    eapply eats_dry; [apply dry_eval; exact HG|]. intros [X' pfit] HE. destruct (HE HM) as [L1 L2].
    eapply eats_dry; [apply dry_when, dry_set_arg|]. intros _ _.
    eapply eats_dry; [apply dry_np_argmin|]. intros gb _. cbn zeta.
    eapply eats_dry; [apply dry_rec_alloc|]. intros nout _.
    eapply eats_dry; [apply dry_rec_write|]. intros r _.
    eapply eats_dry; [apply dry_when, dry_call_cb; exact HG|]. intros _ _.
    set (P := mkDEParams _ _ _ _ _ _ _ _ _ _ _ _ _ _ _).
    eapply eats_weaken.
    - apply (eats_drive HG (de_drv P sync) (has_cb a) (fun _ => de_gen sync (rnd con) (popn a) (dimn a))
               (fun _ us => us = []) (fun _ s => DI P s)).
      + intros it s HI. apply (takes_de_step P sync (it + 1) s HM HL HU HI).
      + intros it s HI. apply eats_ret. auto.
      + exact (conj (eq_trans L1 LX) (eq_trans L2 LX)).
    - intros res us HGs. apply gens_const in HGs. destruct HGs as [-> L]. split; [exact L|].
      rewrite KR. reflexivity.
  Qed.

  (** The rest of a call. *)
  Theorem C68_de A w a0 r s : MpiShape ->
    exec (de_minimize A) w a0 = (inl r, s) ->
    (1 < r_nit r)%Z /\
    fst (rs s) =
      consume (first_pop (a_x0 (dea A)) (popn (dea A)) (dimn (dea A)) ++
               times (Z.to_nat (r_nit r - 1))
                     (de_gen (is_sync (dea_updating A) (dea A)) (is_random (a_constraints (dea A)))
                             (popn (dea A)) (dimn (dea A))))
              (begin (a_seed (dea A)) (fst w)).
  Proof.
    intros HM H. unfold exec, de_minimize in H.
    apply bind_inv in H as (? & s1 & H1 & H). apply (dry_inv _ _ _ _ _ (takes_check_pop _)) in H1 as [R1 (_ & _ & HX)].
    apply bind_inv in H as (? & s2 & H2 & H). apply (dry_inv _ _ _ _ _ (dry_raise_if _ _)) in H2 as [R2 _].
    apply bind_inv in H as (? & s3 & H3 & H). apply (dry_inv _ _ _ _ _ (dry_raise_if _ _)) in H3 as [R3 _].
    apply bind_inv in H as (? & s4 & H4 & H). apply (dry_inv _ _ _ _ _ (dry_raise_if _ _)) in H4 as [R4 _].
    apply bind_inv in H as (? & s5 & H5 & H). apply (dry_inv _ _ _ _ _ (dry_orelse _ _)) in H5 as [R5 _].
    apply bind_inv in H as (? & s6 & H6 & H). apply seed_cb_inv in H6.
    destruct (eats_de _ _ _ _ _ HM HX _ _ _ H) as (us & K & L & ->). split; [exact L|].
    rewrite K, H6, R5, R4, R3, R2, R1. reflexivity.
  Qed.

  (** *** Particle swarms *)
  Lemma takes_pso_async_one P r1 r2 acc i : dry (pso_async_one P r1 r2 acc i).
  Proof.
    unfold pso_async_one. eapply dry_bind; [apply dry_when, dry_set_arg|]. intros _ _.
    eapply dry_bind; [apply dry_selection_async; exact HG|]. intros sel _. apply dry_ret.
  Qed.
  Lemma takes_pso_step P sync it s : takes (pso_step P sync it s) (pso_gen (ps_p P) (ps_d P)) (fun _ => True).
  Proof.
    unfold pso_step, pso_gen. eapply takes_bind; [apply takes_rand_mat|]. intros r1 _.
    eapply takes_end; [apply takes_rand_mat|]. intros r2 _. eapply (dry_bind _ _ _ (fun _ => True)).
    - destruct sync.
      + unfold pso_sync. eapply dry_bind; [apply dry_raise_if|]. intros _ _. cbn zeta.
        eapply dry_bind; [apply dry_selection_sync, dry_eval; exact HG|]. intros sel _. apply dry_ret.
      + unfold pso_async. eapply (dry_bind _ _ _ (fun _ => True)); [|intros [s1 st] _; apply dry_ret].
        apply (dry_foldM _ (fun _ => True)); [|exact I]. intros acc i _. apply takes_pso_async_one.
    - intros [s1 st] _. eapply dry_bind; [apply dry_rec_write|]. intros r _. apply dry_ret.
  Qed.

  Lemma eats_cpso a sync w c1 c2 gamma :
    (forall x, a_x0 a = Some x -> length (nd_rows x) = popn a) ->
    eats (cpso a sync w c1 c2 gamma)
      (fun r us => exists vs,
        Gens (fun _ => pso_gen (popn a) (dimn a))
             (restart_uses (popn a) (dimn a) (a_maxiter a) (competes gamma)) 1 (r_nit r) vs /\
        us = first_pop (a_x0 a) (popn a) (dimn a) ++ vs).
  Proof.
    intros HX. unfold cpso. eapply eats_dry; [apply dry_eval_kindM|]. intros mode _.
    eapply eats_dry; [apply dry_unpack|]. intros [lower upper] [HL HU]. cbn [fst snd] in HL, HU.
    eapply eats_dry; [apply dry_orelse|]. intros con _.
    eapply eats_take; [apply takes_first_pop; exact HX|]. intros X LX.
    eapply eats_dry; [apply dry_raise_if|]. intros _ _. cbn zeta.
    eapply eats_dry; [apply dry_eval; exact HG|]. intros [X' pfit] _.
    eapply eats_dry; [apply dry_when, dry_set_arg|]. intros _ _.
    eapply eats_dry; [apply dry_np_argmin|]. intros gb _.
    eapply eats_dry; [apply dry_rec_alloc|]. intros nout _.
    eapply eats_dry; [apply dry_rec_write|]. intros r _.
    eapply eats_dry; [apply dry_when, dry_call_cb; exact HG|]. intros _ _.
    set (P := mkPSOParams _ _ _ _ _ _ _ _ _ _ _ _ _ _ _ _ _).
    eapply eats_weaken.
    - apply (eats_drive HG (pso_drv P sync) (has_cb a) (fun _ => pso_gen (popn a) (dimn a))
               (restart_uses (popn a) (dimn a) (a_maxiter a) (competes gamma)) (fun _ _ => True)).
      + intros it s _. eapply takes_weaken; [apply (takes_pso_step P sync (it + 1) s)|]. auto.
      + intros it s _. cbn [pso_drv d_post]. unfold pso_post. cbn [ps_gamma P].
        change (truthy gamma) with (competes gamma).
        destruct (competes gamma) as [g|]; [|apply eats_ret; split; [left; reflexivity|exact I]].
        unfold restart. destruct (_ <? _)%num; [|apply eats_ret; split; [left; reflexivity|exact I]].
        eapply eats_dry; [apply dry_raise_if|]. intros _ _.
        eapply eats_dry; [apply dry_orelse|]. intros k HK. cbn beta in HK.
        destruct (0 <? k)%Z eqn:Hk; [|apply eats_ret; split; [left; reflexivity|exact I]].
        cbn zeta. eapply eats_take; [apply takes_uniform_mat; [exact HL|exact HU]|]. intros rows _.
        eapply eats_dry; [apply dry_when, dry_set_arg|]. intros _ _. apply eats_ret. split; [|exact I].
        right. exists g, k. apply Z.ltb_lt in Hk. rewrite app_nil_r.
        split; [reflexivity|]. split; [exact HK|]. split; [exact Hk|reflexivity].
      + exact I.
    - intros res us H. exists us. split; [exact H|reflexivity].
  Qed.

  Lemma cpso_call A w a0 r s :
    exec (cpso_minimize A) w a0 = (inl r, s) ->
    exists us,
      Gens (fun _ => pso_gen (popn (pa A)) (dimn (pa A)))
           (restart_uses (popn (pa A)) (dimn (pa A)) (a_maxiter (pa A)) (competes (pa_competitivity A)))
           1 (r_nit r) us /\
      fst (rs s) = consume (first_pop (a_x0 (pa A)) (popn (pa A)) (dimn (pa A)) ++ us)
                           (begin (a_seed (pa A)) (fst w)).
  Proof.
    intros H. unfold exec, cpso_minimize in H.
    apply bind_inv in H as (? & s1 & H1 & H). apply (dry_inv _ _ _ _ _ (takes_check_pop _)) in H1 as [R1 (_ & _ & HX)].
    apply bind_inv in H as (? & s2 & H2 & H). apply (dry_inv _ _ _ _ _ (dry_raise_if _ _)) in H2 as [R2 _].
    apply bind_inv in H as (? & s3 & H3 & H). apply (dry_inv _ _ _ _ _ (dry_raise_if _ _)) in H3 as [R3 _].
    apply bind_inv in H as (? & s4 & H4 & H). apply (dry_inv _ _ _ _ _ (dry_raise_if _ _)) in H4 as [R4 _].
    apply bind_inv in H as (? & s5 & H5 & H). apply (dry_inv _ _ _ _ _ (dry_raise_if _ _)) in H5 as [R5 _].
    apply bind_inv in H as (? & s6 & H6 & H). apply (dry_inv _ _ _ _ _ (dry_raise_if _ _)) in H6 as [R6 _].
    apply bind_inv in H as (? & s7 & H7 & H). apply seed_cb_inv in H7.
    destruct (eats_cpso _ _ _ _ _ _ HX _ _ _ H) as (us & K & vs & L & ->). exists vs. split; [exact L|].
    rewrite K, H7, R6, R5, R4, R3, R2, R1. reflexivity.
  Qed.
  Theorem C68_cpso A w a0 r s :
    exec (cpso_minimize A) w a0 = (inl r, s) ->
    exists us,
      Gens (fun _ => pso_gen (popn (pa A)) (dimn (pa A)))
           (restart_uses (popn (pa A)) (dimn (pa A)) (a_maxiter (pa A)) (competes (pa_competitivity A)))
           1 (r_nit r) us /\
      fst (rs s) = consume (first_pop (a_x0 (pa A)) (popn (pa A)) (dimn (pa A)) ++ us)
                           (begin (a_seed (pa A)) (fst w)).
  Proof. apply cpso_call. Qed.
  Lemma gens_none G p d mx it nit us :
    Gens (fun _ => G) (restart_uses p d mx None) it nit us -> us = times (Z.to_nat (nit - it)) G /\ (it < nit)%Z.
  Proof.
    intros H. apply gens_const. induction H; [constructor|]. apply gens_more; [|assumption].
    destruct H as [H|(g & k & Hg & _)]; [exact H|discriminate].
  Qed.
  Theorem C68_no_competition A w a0 r s :
    competes (pa_competitivity A) = None ->
    exec (cpso_minimize A) w a0 = (inl r, s) ->
    (1 < r_nit r)%Z /\
    fst (rs s) =
      consume (first_pop (a_x0 (pa A)) (popn (pa A)) (dimn (pa A)) ++
               times (Z.to_nat (r_nit r - 1)) (pso_gen (popn (pa A)) (dimn (pa A))))
              (begin (a_seed (pa A)) (fst w)).
  Proof.
    intros HC H. destruct (cpso_call _ _ _ _ _ H) as (us & HGs & K). rewrite HC in HGs.
    apply gens_none in HGs as [-> L]. auto.
  Qed.
  Theorem C68_pso A w a0 r s :
    exec (pso_minimize A) w a0 = (inl r, s) ->
    (1 < r_nit r)%Z /\
    fst (rs s) =
      consume (first_pop (a_x0 (psa A)) (popn (psa A)) (dimn (psa A)) ++
               times (Z.to_nat (r_nit r - 1)) (pso_gen (popn (psa A)) (dimn (psa A))))
              (begin (a_seed (psa A)) (fst w)).
  Proof. intros H. exact (C68_no_competition (mkCPSOArgs (psa A) (psa_inertia A) (psa_cognitivity A)
    (psa_sociability A) None (psa_updating A)) _ _ _ _ eq_refl H). Qed.

  (** *** Neighbourhood algorithm *)
  Lemma filter_seq_nth (m : list bool) :
    length (filter (fun j => nth j m false) (seq 0 (length m))) = length (filter (fun b => b) m).
  Proof.
    induction m as [|b m IH]; [reflexivity|]. cbn [length seq filter].
    change (nth 0 (b :: m) false) with b. rewrite <- seq_shift.
    assert (K : forall l, length (filter (fun j => nth j (b :: m) false) (map S l))
                   = length (filter (fun j => nth j m false) l)).
    { induction l as [|x l IHl]; [reflexivity|]. cbn [map filter].
      change (nth (S x) (b :: m) false) with (nth x m false).
      destruct (nth x m false); cbn [length]; rewrite IHl; reflexivity. }
    destruct b; cbn [length]; rewrite K, IH; reflexivity.
  Qed.

  Lemma takes_na_axes d mask xk U l : forall acc,
    takes (foldM (na_axis d mask xk U) acc l)
          (times (length (filter (fun j => nth j mask false) l)) [URand]) (fun _ => True).
  Proof.
    induction l as [|j l IH]; intros [[x d1] d2]; cbn [foldM filter].
    - apply dry_ret.
    - unfold na_axis at 1. destruct (nth j mask false); cbn [negb].
      + cbn [length]. rewrite times_S. eapply takes_bind; [|intros acc _; apply IH].
        cbn zeta. eapply takes_end; [apply takes_uniform1|]. intros v _. destruct (S j <? d); apply dry_ret.
      + eapply dry_bind; [apply dry_ret|]. intros acc _. apply IH.
  Qed.

  Definition free_vars (lower upper : vec) : nat := length (filter (fun b => b) (span_mask lower upper)).
  Lemma takes_na_mutation P Xall fit :
    length (na_lower P) = na_d P -> length (na_upper P) = na_d P ->
    takes (na_mutation P Xall fit) (times (na_p P * free_vars (na_lower P) (na_upper P)) [URand]) (fun _ => True).
  Proof.
    intros HL HU. unfold na_mutation. cbn zeta. rewrite <- times_mul.
    replace (times (na_p P) _) with
      (times (length (seq 0 (na_p P))) (times (free_vars (na_lower P) (na_upper P)) [URand]))
      by (rewrite seq_length; reflexivity).
    eapply takes_weaken; [apply takes_mapM with (Q := fun _ => True)|auto]. intros i. unfold na_one. cbn zeta.
    eapply takes_end; [|intros acc _; apply dry_ret]. unfold free_vars.
    assert (LM : length (span_mask (na_lower P) (na_upper P)) = na_d P).
    { unfold span_mask. rewrite map2_length. change vec with (list T) in *. lia. }
    rewrite <- filter_seq_nth, LM. apply takes_na_axes.
  Qed.
  Lemma dry_na_eval P X : takes (na_eval P X) [] (same_len X).
  Proof.
    unfold na_eval. eapply dry_bind; [apply dry_eval; exact HG|]. intros [Y f] HE. apply takes_ret.
    intros HM. destruct (HE HM) as [_ K]. cbn in *. rewrite map_length in K. auto.
  Qed.
  Lemma takes_na_step P it s :
    length (na_lower P) = na_d P -> length (na_upper P) = na_d P ->
    takes (na_step P it s) (times (na_p P * free_vars (na_lower P) (na_upper P)) [URand]) (fun _ => True).
  Proof.
    intros HL HU. unfold na_step. eapply takes_end; [apply takes_na_mutation; assumption|]. intros X _.
    eapply dry_bind; [apply dry_selection_sync, dry_na_eval|]. intros sel _. cbn zeta.
    eapply dry_bind; [apply dry_rec_write|]. intros r _. apply dry_ret.
  Qed.
  Lemma free_vars_bounds b s lower upper s' : unpack_bounds b s = (inl (lower, upper), s') ->
    free_vars lower upper =
    length (filter (fun r => nltb n0 (nsub (nth 1 r n0) (nth 0 r n0))) (nd_rows b)).
  Proof.
    unfold unpack_bounds. destruct b as [x|v|c rows]; try discriminate.
    do 3 (destruct c as [|c]; try discriminate). intros [= <- <- _]. cbn [nd_rows]. unfold free_vars, span_mask.
    induction rows as [|r rows IH]; [reflexivity|]. cbn. destruct (nltb n0 _); cbn; rewrite IH; reflexivity.
  Qed.

  Lemma eats_unpack {B} b (k : vec * vec -> M B) R :
    (forall lower upper, length lower = nd_len b -> length upper = nd_len b ->
       free_vars lower upper =
         length (filter (fun r => nltb n0 (nsub (nth 1 r n0) (nth 0 r n0))) (nd_rows b)) ->
       eats (k (lower, upper)) R) ->
    eats (bind (unpack_bounds b) k) R.
  Proof.
    intros H s a s' Hs. apply bind_inv in Hs as ([lower upper] & s1 & H1 & H2).
    pose proof (free_vars_bounds _ _ _ _ _ H1) as HF.
    apply (dry_inv _ _ _ _ _ (dry_unpack _)) in H1 as [R1 [K1 K2]].
    destruct (H lower upper K1 K2 HF _ _ _ H2) as (us & L1 & L2). exists us. rewrite <- R1. auto.
  Qed.

  Lemma eats_na a nrperc :
    (forall x, a_x0 a = Some x -> length (nd_rows x) = popn a) ->
    eats (na a nrperc)
      (fun r us => (1 < r_nit r)%Z /\
        us = first_pop (a_x0 a) (popn a) (dimn a) ++
             times (Z.to_nat (r_nit r - 1)) (na_gen (popn a) (a_bounds a))).
  Proof.
    intros HX. unfold na. eapply eats_dry; [apply dry_eval_kindM|]. intros mode _. cbn zeta.
    apply eats_unpack. intros lower upper HL HU HF.
    eapply eats_dry; [apply dry_orelse|]. intros nr _.
    eapply eats_take; [apply takes_first_pop; exact HX|]. intros X LX.
    eapply eats_dry; [apply dry_na_eval|]. intros [X' pfit] _.
    eapply eats_dry; [apply dry_np_argmin|]. intros gb _.
    eapply eats_dry; [apply dry_rec_alloc|]. intros nout _.
    eapply eats_dry; [apply dry_rec_write|]. intros r _.
    eapply eats_dry; [apply dry_when, dry_call_cb; exact HG|]. intros _ _.
    set (P := mkNAParams _ _ _ _ _ _ _ _ _ nout).
    eapply eats_weaken.
    - apply (eats_drive HG (na_drv P) (has_cb a) (fun _ => na_gen (popn a) (a_bounds a))
               (fun _ us => us = []) (fun _ _ => True)).
      + intros it s _. unfold na_gen. rewrite <- HF.
        eapply takes_weaken; [apply (takes_na_step P (it + 1) s HL HU)|]. auto.
      + intros it s _. apply eats_ret. auto.
      + exact I.
    - intros res us HGs. apply gens_const in HGs. destruct HGs as [-> L]. auto.
  Qed.

  Theorem C68_na A w a0 r s :
    exec (na_minimize A) w a0 = (inl r, s) ->
    (1 < r_nit r)%Z /\
    fst (rs s) =
      consume (first_pop (a_x0 (naa A)) (popn (naa A)) (dimn (naa A)) ++
               times (Z.to_nat (r_nit r - 1)) (na_gen (popn (naa A)) (a_bounds (naa A))))
              (begin (a_seed (naa A)) (fst w)).
  Proof.
    intros H. unfold exec, na_minimize in H.
    apply bind_inv in H as (? & s1 & H1 & H). apply (dry_inv _ _ _ _ _ (takes_check_pop _)) in H1 as [R1 (_ & _ & HX)].
    apply bind_inv in H as (? & s2 & H2 & H). apply (dry_inv _ _ _ _ _ (dry_raise_if _ _)) in H2 as [R2 _].
    apply bind_inv in H as (? & s3 & H3 & H). apply seed_cb_inv in H3.
    destruct (eats_na _ _ HX _ _ _ H) as (us & K & L & ->). split; [exact L|].
    rewrite K, H3, R2, R1. reflexivity.
  Qed.

  (** *** CMA-ES and VD-CMA *)
  Lemma dry_cma_eval P X : dry (cma_eval P X).
  Proof. unfold cma_eval. eapply dry_bind; [apply dry_eval; exact HG|]. intros [Y f] _. apply dry_ret. Qed.
  Lemma dry_cma_fitness P arx xm xo sg dC it pen : dry (cma_fitness P arx xm xo sg dC it pen).
  Proof.
    unfold cma_fitness. destruct (cm_pen P).
    - unfold penalize. cbn zeta. eapply dry_bind; [apply dry_cma_eval|]. intros fit _.
      eapply (dry_bind _ _ _ (fun _ => True)).
      + destruct (_ =? _)%num; [destruct (filter _ _); [apply dry_raise|apply dry_ret]|].
        destruct (negb _); apply dry_ret.
      + intros [[de hi] va] _. destruct (pen_ini pen && _); apply dry_ret.
    - eapply dry_bind; [apply dry_cma_eval|]. intros fit _. apply dry_ret.
  Qed.
  Lemma dry_hist_set P it v h : dry (hist_set P it v h).
  Proof. unfold hist_set. destruct (_ <? _)%Z; [apply dry_raise|apply dry_ret]. Qed.
  Lemma takes_cma_step P it s : takes (cma_step P it s) (cma_gen (cm_p P) (cm_d P)) (fun _ => True).
  Proof.
    unfold cma_step, cma_gen. cbn zeta. eapply takes_end.
    - unfold cma_sample. rewrite <- times_mul. apply takes_replicateM with (Q := fun _ => True).
      eapply takes_end; [apply takes_randn_vec|]. intros z _. apply dry_ret.
    - intros arx _. eapply dry_bind; [apply dry_cma_fitness|]. intros [[fit valid] pen] _.
      eapply dry_bind; [apply dry_rec_write|]. intros r _.
      eapply dry_bind; [apply dry_hist_set|]. intros hist _. eapply (dry_bind _ _ _ (fun _ => True)).
      + destruct (_ <? _)%num; [|apply dry_ret]. eapply dry_bind; [apply dry_orelse|].
        intros [D B] _. apply dry_ret.
      + intros [[[[B D] C] inv] ee] _. apply dry_ret.
  Qed.
  Lemma takes_vd_step P it s : vs_inj s = negb (it <=? 1)%Z ->
    takes (vd_step P it s) (vd_gen (cm_p P) (cm_d P) it) (fun q => vs_inj (fst q) = true).
  Proof.
    intros HJ. unfold vd_step, vd_gen. cbn zeta. eapply takes_end.
    - unfold vd_sample. eapply takes_bind.
      + rewrite <- times_mul. apply takes_replicateM, takes_randn_vec.
      + intros arz _. cbn zeta. rewrite HJ. destruct (it <=? 1)%Z; cbn [negb].
        * apply takes_ret with (Q := fun _ => True). exact I.
        * eapply takes_end; [apply takes_randn_vec|]. intros z _.
          eapply dry_bind; [apply dry_raise_if|]. intros _ _. apply dry_ret.
    - intros ary _. eapply dry_bind; [apply dry_cma_fitness|]. intros [[fit valid] pen] _.
      eapply dry_bind; [apply dry_rec_write|]. intros r _.
      eapply dry_bind; [apply dry_hist_set|]. intros hist _.
      destruct (vd_sigma P s _) as [[ps sg] cond]. destruct (vd_update _ _ _ _ _ _ _ _ _ _ _ _ _ _) as [vv dv].
      apply takes_ret. reflexivity.
  Qed.

  Lemma takes_cma_setup A :
    takes (cma_setup A) (first_mean (a_x0 (caa A)) (dimn (caa A)))
      (fun q => cm_p (snd q) = popn (caa A) /\ cm_d (snd q) = dimn (caa A)).
  Proof.
    unfold cma_setup. eapply dry_bind; [apply dry_eval_kindM|]. intros mode _.
    eapply dry_bind; [apply dry_unpack|]. intros [lower upper] _.
    eapply (dry_bind _ _ _ (fun _ => True)).
    { unfold cma_cons_check. destruct (a_constraints (caa A)) as [c|]; [|apply dry_ret].
      destruct (String.eqb c "Penalize"); [apply dry_ret|apply dry_raise]. }
    intros pen _. eapply (takes_end _ _ _ (fun _ => True)).
    - destruct (a_x0 (caa A)) as [x|]; [apply dry_ret|]. cbn [first_mean].
      eapply takes_weaken; [apply takes_replicateM, takes_uniform|]. auto.
    - intros xm _. eapply dry_bind; [apply dry_orelse|]. intros mu _. apply takes_ret. split; reflexivity.
  Qed.
  Lemma dry_cma_alloc a : dry (cma_alloc a).
  Proof.
    unfold cma_alloc. eapply dry_bind; [apply dry_rec_alloc|]. intros n _.
    do 3 (eapply dry_bind; [apply dry_raise_if|]; intros _ _).
    eapply dry_bind; [apply dry_orelse|]. intros il _. apply dry_ret.
  Qed.

  Lemma eats_cmaes A :
    eats (cmaes A)
      (fun r us => (0 < r_nit r)%Z /\
        us = first_mean (a_x0 (caa A)) (dimn (caa A)) ++
             times (Z.to_nat (r_nit r)) (cma_gen (popn (caa A)) (dimn (caa A)))).
  Proof.
    unfold cmaes. eapply eats_take; [apply takes_cma_setup|]. intros [xm P0] [HP HD]. cbn [snd] in HP, HD.
    eapply eats_dry; [apply dry_cma_alloc|]. intros [nout ilim] _. cbn zeta.
    set (P := mkCMAParams _ _ _ _ _ _ _ _ _ _ _ _ _ _ _). eapply eats_weaken.
    - apply (eats_drive HG (cma_drv P) (has_cb (caa A)) (fun _ => cma_gen (popn (caa A)) (dimn (caa A)))
               (fun _ us => us = []) (fun _ _ => True)).
      + intros it s _. rewrite <- HP, <- HD. eapply takes_weaken; [apply (takes_cma_step P (it + 1) s)|]. auto.
      + intros it s _. apply eats_ret. auto.
      + exact I.
    - intros res us HGs. apply gens_const in HGs. destruct HGs as [-> L]. rewrite Z.sub_0_r. auto.
  Qed.
  Lemma dry_cma_check A s u s' : cma_check A s = (inl u, s') ->
    fst (rs s') = begin (a_seed (caa A)) (fst (rs s)).
  Proof.
    intros H. unfold cma_check in H.
    apply bind_inv in H as (? & s1 & H1 & H). apply (dry_inv _ _ _ _ _ (dry_raise_if _ _)) in H1 as [R1 _].
    apply bind_inv in H as (? & s2 & H2 & H). apply (dry_inv _ _ _ _ _ (dry_raise_if _ _)) in H2 as [R2 _].
    apply bind_inv in H as (? & s3 & H3 & H). apply (dry_inv _ _ _ _ _ (dry_raise_if _ _)) in H3 as [R3 _].
    apply bind_inv in H as (? & s4 & H4 & H). apply (dry_inv _ _ _ _ _ (dry_raise_if _ _)) in H4 as [R4 _].
    apply bind_inv in H as (? & s5 & H5 & H). apply (dry_inv _ _ _ _ _ (dry_raise_if _ _)) in H5 as [R5 _].
    apply seed_cb_inv in H. rewrite H, R5, R4, R3, R2, R1. reflexivity.
  Qed.
  Theorem C68_cmaes A w a0 r s :
    exec (cmaes_minimize A) w a0 = (inl r, s) ->
    (0 < r_nit r)%Z /\
    fst (rs s) =
      consume (first_mean (a_x0 (caa A)) (dimn (caa A)) ++
               times (Z.to_nat (r_nit r)) (cma_gen (popn (caa A)) (dimn (caa A))))
              (begin (a_seed (caa A)) (fst w)).
  Proof.
    intros H. apply bind_inv in H as (u & s1 & H1 & H). apply dry_cma_check in H1.
    destruct (eats_cmaes _ _ _ _ H) as (us & K & L & ->). split; [exact L|]. rewrite K, H1. reflexivity.
  Qed.

  Lemma gens_vd p d it nit us : (0 <= it)%Z ->
    Gens (vd_gen p d) (fun _ u => u = []) it nit us ->
    (it < nit)%Z /\ us = flat_map (fun i => vd_gen p d (it + 1 + Z.of_nat i)) (seq 0 (Z.to_nat (nit - it))).
  Proof.
    intros Hi. induction 1 as [it|it nit u us -> H IH].
    - split; [lia|]. replace (Z.to_nat (it + 1 - it)) with 1 by lia. cbn. rewrite Z.add_0_r, app_nil_r. reflexivity.
    - destruct IH as [L ->]; [lia|]. split; [lia|]. cbn.
      replace (Z.to_nat (nit - it)) with (S (Z.to_nat (nit - (it + 1)))) by lia. cbn [seq flat_map].
      rewrite Z.add_0_r. f_equal. rewrite <- seq_shift, !flat_map_concat_map, map_map. f_equal.
      apply map_ext. intros i. f_equal. lia.
  Qed.
  Lemma eats_vdcma A :
    eats (vdcma A)
      (fun r us => (0 < r_nit r)%Z /\
        us = first_mean (a_x0 (caa A)) (dimn (caa A)) ++ times (dimn (caa A)) [UNormal] ++
             flat_map (fun i => vd_gen (popn (caa A)) (dimn (caa A)) (1 + Z.of_nat i)) (seq 0 (Z.to_nat (r_nit r)))).
  Proof.
    unfold vdcma. eapply eats_take; [apply takes_cma_setup|]. intros [xm P0] [HP HD]. cbn [snd] in HP, HD.
    cbn zeta. eapply eats_take; [apply takes_randn_vec|]. intros z _. rewrite HD.
    eapply eats_dry; [apply dry_cma_alloc|]. intros [nout ilim] _.
    set (P := mkCMAParams _ _ _ _ _ _ _ _ _ _ _ _ _ _ _). eapply eats_weaken.
    - apply (eats_drive HG (vd_drv P) (has_cb (caa A)) (vd_gen (popn (caa A)) (dimn (caa A)))
               (fun _ us => us = []) (fun it s => (0 <= it)%Z /\ vs_inj s = negb (it <=? 0)%Z)).
      + intros it s [H0 HJ]. rewrite <- HP. eapply takes_weaken.
        * apply (takes_vd_step P (it + 1) s). rewrite HJ. f_equal.
          destruct (Z.leb_spec it 0), (Z.leb_spec (it + 1) 1); try reflexivity; lia.
        * intros q Hq. split; [lia|]. rewrite Hq. destruct (Z.leb_spec (it + 1) 0); [lia|reflexivity].
      + intros it s H. apply eats_ret. auto.
      + split; [lia|reflexivity].
    - intros res us HGs. apply gens_vd in HGs; [|lia]. destruct HGs as [L ->]. rewrite Z.sub_0_r. auto.
  Qed.
  Theorem C68_vdcma A w a0 r s :
    exec (vdcma_minimize A) w a0 = (inl r, s) ->
    (0 < r_nit r)%Z /\
    fst (rs s) =
      consume (first_mean (a_x0 (caa A)) (dimn (caa A)) ++ times (dimn (caa A)) [UNormal] ++
               flat_map (fun i => vd_gen (popn (caa A)) (dimn (caa A)) (1 + Z.of_nat i))
                        (seq 0 (Z.to_nat (r_nit r))))
              (begin (a_seed (caa A)) (fst w)).
  Proof.
    intros H. apply bind_inv in H as (u & s1 & H1 & H). apply dry_cma_check in H1.
    destruct (eats_vdcma _ _ _ _ H) as (us & K & L & ->). split; [exact L|]. rewrite K, H1. reflexivity.
  Qed.

  (** *** Samplers *)
  Lemma search_space_use x lower upper c :
    in_search_space x lower upper c = match accept_use c with [] => false | _ => true end.
  Proof. destruct c as [c|]; [|reflexivity]. unfold in_search_space, accept_use. destruct (String.eqb c "Reject"); reflexivity. Qed.
  Lemma accept_use_cases c : accept_use c = [] \/ accept_use c = [URand].
  Proof. unfold accept_use. destruct (match c with Some s => _ | None => _ end); auto. Qed.

  Lemma takes_s_check_x0 a :
    takes (s_check_x0 a) [] (fun q => length (fst q) = nd_len (s_bounds a) /\ length (snd q) = nd_len (s_bounds a)).
  Proof.
    unfold s_check_x0. do 2 (eapply dry_bind; [apply dry_raise_if|]; intros _ _).
    eapply dry_bind; [apply dry_unpack|]. intros [lower upper] [HL HU].
    eapply (dry_bind _ _ _ (fun _ => True)); [|intros _ _; apply takes_ret; auto].
    destruct (s_x0 a) as [x|]; [|apply dry_ret]. destruct x; try apply dry_raise;
      (eapply takes_weaken; [apply dry_raise_if|auto]).
  Qed.
  Lemma takes_s_steps a lower upper :
    length lower = nd_len (s_bounds a) -> length upper = nd_len (s_bounds a) ->
    takes (s_steps a lower upper) [] (fun v => length v = nd_len (s_bounds a)).
  Proof.
    intros HL HU. unfold s_steps. eapply dry_bind; [apply dry_raise_if|]. intros ? HB. cbn beta in HB.
    apply negb_false_iff, Nat.eqb_eq in HB.
    assert (K : forall v, length v = nd_len (s_bounds a) ->
      length (map2 (fun s lu => (s * (nlit 5 (-1) * (snd lu - fst lu)))%num) v (combine lower upper))
        = nd_len (s_bounds a)).
    { intros v Hv. rewrite map2_length, combine_length. change vec with (list T) in *. lia. }
    destruct (s_stepsize a) as [x|v|c m]; cbn [nd_len] in *; cbn zeta.
    - eapply dry_bind; [apply dry_when, dry_set_arg|]. intros _ _. apply takes_ret, K, HB.
    - eapply dry_bind; [apply dry_when, dry_set_arg|]. intros _ _. apply takes_ret, K, HB.
    - apply eats_raise.
  Qed.
  Lemma takes_s_first a lower upper :
    length lower = nd_len (s_bounds a) -> length upper = nd_len (s_bounds a) ->
    takes (s_first a lower upper) (first_mean (s_x0 a) (nd_len (s_bounds a))) (fun _ => (0 < s_maxiter a)%Z).
  Proof.
    intros HL HU. unfold s_first. eapply dry_bind; [apply dry_raise_if|]. intros ? H1. cbn beta in H1.
    eapply (takes_end _ _ _ (fun _ => True)).
    - destruct (s_x0 a) as [x|]; cbn [first_mean].
      + destruct x; try apply dry_raise. apply dry_ret.
      + eapply takes_weaken; [apply takes_uniform_vec; eassumption|]. auto.
    - intros x _. eapply dry_bind; [apply dry_raise_if|]. intros ? H2. cbn beta in H2. apply takes_ret.
      apply Z.ltb_ge in H1. apply Z.eqb_neq in H2. lia.
  Qed.
  Lemma dry_s_cb a c : dry (s_cb a c).
  Proof. apply dry_when, dry_call_scb, HG. Qed.
  Lemma dry_s_first_cb a x f : dry (s_first_cb a x f).
  Proof. apply dry_when, dry_call_scb, HG. Qed.

  Lemma accept_len c x f : length (ch_x (ch_accept c x f)) = S (length (ch_x c)).
  Proof. unfold ch_accept. destruct (f <? ch_fmin c)%num; cbn; rewrite app_length; cbn; lia. Qed.
  Lemma reject_len c : length (ch_x (ch_reject c)) = S (length (ch_x c)).
  Proof. cbn. rewrite app_length. cbn. lia. Qed.

  Lemma takes_mc_move P j c : length (mc_step P) = mc_d P -> 1 <= mc_b P ->
    takes (mc_move P j c) (times (mc_b P) [UNormal] ++ accept_use (s_constraints (mc_args P)))
      (fun c' => length (ch_x c') = S (length (ch_x c))).
  Proof.
    intros HL HB. unfold mc_move. eapply (takes_bind _ _ _ _ (fun _ => True)).
    - unfold mc_propose. cbn zeta. set (jm := Nat.min (mc_d P) (j + mc_b P - 1)).
      assert (K : length (slice j (jm + 1) (mc_step P)) = jm - j + 1 -> jm - j + 1 = mc_b P).
      { unfold slice. rewrite firstn_length, skipn_length. change vec with (list T) in *. rewrite HL. unfold jm. lia. }
      eapply eats_take; [apply takes_randn_vec|]. intros z _.
      eapply eats_dry; [apply dry_raise_if|]. intros ? H1. cbn beta in H1. apply eats_ret. split; [|exact I].
      apply negb_false_iff, Nat.eqb_eq in H1. rewrite app_nil_r, (K H1). reflexivity.
    - intros y _. eapply (takes_end _ _ _ (fun c' => length (ch_x c') = S (length (ch_x c)))).
      + rewrite search_space_use. destruct (accept_use_cases (s_constraints (mc_args P))) as [->| ->].
        * apply takes_ret, reject_len.
        * eapply dry_bind; [apply dry_call_fun, HG|]. intros fy _.
          eapply takes_end; [apply takes_rand|]. intros u _. apply takes_ret.
          destruct (metropolis _ _); [apply accept_len|apply reject_len].
      + intros c' H. eapply dry_bind; [apply dry_s_cb|]. intros _ _. apply takes_ret. exact H.
  Qed.

  Section MC.
    Variable P : MCParams.
    Hypothesis (HL : length (mc_step P) = mc_d P) (HB : 1 <= mc_b P).
    Let U := times (mc_b P) [UNormal] ++ accept_use (s_constraints (mc_args P)).
    Let grown (c c' : Chain) (us : list Use) : Prop :=
      length (ch_x c) <= length (ch_x c') /\ us = times (length (ch_x c') - length (ch_x c)) U.

    Lemma grown_step c c1 c2 us : length (ch_x c1) = S (length (ch_x c)) -> grown c1 c2 us -> grown c c2 (U ++ us).
    Proof.
      intros H [K1 ->]. split; [lia|].
      replace (length (ch_x c2) - length (ch_x c)) with (S (length (ch_x c2) - length (ch_x c1))) by lia.
      reflexivity.
    Qed.
    Lemma grown_refl c : grown c c [].
    Proof. split; [lia|]. rewrite Nat.sub_diag. reflexivity. Qed.
    Lemma eats_mc_inner js : forall c, (Z.of_nat (length (ch_x c)) < mc_maxiter P)%Z ->
      eats (mc_inner P js c)
        (fun c' us => grown c c' us /\ (Z.of_nat (length (ch_x c')) <= mc_maxiter P)%Z).
    Proof.
      induction js as [|j js IH]; intros c Hc; cbn [mc_inner].
      - apply eats_ret. split; [apply grown_refl|lia].
      - eapply eats_take; [apply takes_mc_move; assumption|]. intros c1 H1. cbn beta in H1. unfold mc_full.
        destruct (Z.eqb_spec (Z.of_nat (length (ch_x c1))) (mc_maxiter P)) as [He|Hn].
        + apply eats_ret. split; [|lia]. apply (grown_step c c1 c1 [] H1), grown_refl.
        + eapply eats_weaken; [apply IH; lia|]. intros c2 us [K1 K2]. split; [|exact K2].
          exact (grown_step c c1 c2 us H1 K1).
    Qed.
    Lemma eats_mc_outer fl : forall c, (Z.of_nat (length (ch_x c)) <= mc_maxiter P)%Z ->
      eats (mc_outer P fl c) (fun c' us => grown c c' us /\ Z.of_nat (length (ch_x c')) = mc_maxiter P).
    Proof.
      induction fl as [|fl IH]; intros c Hc; cbn [mc_outer];
        destruct (Z.ltb_spec (Z.of_nat (length (ch_x c))) (mc_maxiter P)) as [Hl|Hg];
        try (apply eats_ret; split; [apply grown_refl|lia]).
      - apply eats_raise.
      - eapply eats_bind; [apply eats_mc_inner, Hl|]. intros c1 us [[K1 ->] K2].
        eapply eats_weaken; [apply IH, K2|]. intros c2 vs [[L1 ->] L2]. split; [|exact L2].
        split; [lia|]. rewrite <- times_add. f_equal. lia.
    Qed.
  End MC.

  Theorem C68_mcmc A w a0 r s :
    exec (mcmc_sample A) w a0 = (inl r, s) ->
    (0 < s_maxiter (mca A))%Z /\
    fst (rs s) =
      consume (first_mean (s_x0 (mca A)) (nd_len (s_bounds (mca A))) ++
               times (Z.to_nat (s_maxiter (mca A)) - 1)
                     (mcmc_move (mca_perc A) (nd_len (s_bounds (mca A))) (s_constraints (mca A))))
              (begin (s_seed (mca A)) (fst w)).
  Proof.
    intros H. unfold exec, mcmc_sample, mcmc_fuel in H.
    apply bind_inv in H as ([lower upper] & s1 & H1 & H). apply (dry_inv _ _ _ _ _ (takes_s_check_x0 _)) in H1 as [R1 [HL HU]].
    cbn [fst snd] in HL, HU.
    apply bind_inv in H as (steps & s2 & H2 & H). apply (dry_inv _ _ _ _ _ (takes_s_steps _ _ _ HL HU)) in H2 as [R2 HS].
    apply bind_inv in H as (? & s3 & H3 & H). apply (dry_inv _ _ _ _ _ (dry_raise_if _ _)) in H3 as [R3 _].
    cbn zeta in H.
    apply bind_inv in H as (b & s4 & H4 & H). apply (dry_inv _ _ _ _ _ (dry_orelse _ _)) in H4 as [R4 HB].
    apply bind_inv in H as (? & s5 & H5 & H). apply s_seed_cb_inv in H5.
    apply bind_inv in H as (xf & s6 & H6 & H). destruct (takes_s_first _ _ _ HL HU _ _ _ H6) as (us6 & R6 & -> & HM).
    apply bind_inv in H as (f & s7 & H7 & H). apply (dry_inv _ _ _ _ _ (dry_call_fun HG _)) in H7 as [R7 _].
    apply bind_inv in H as (? & s8 & H8 & H). apply (dry_inv _ _ _ _ _ (dry_s_first_cb _ _ _)) in H8 as [R8 _].
    apply bind_inv in H as (c & s9 & H9 & H). injection H as <- <-. split; [exact HM|].
    match type of H9 with mc_outer ?P ?fl ?c0 _ = _ =>
      assert (K1 : 1 <= mc_b P) by (cbn; lia);
      assert (K2 : (Z.of_nat (length (ch_x c0)) <= mc_maxiter P)%Z) by (cbn; lia);
      destruct (eats_mc_outer P HS K1 fl c0 K2 _ _ _ H9) as (us & R9 & [_ ->] & HN) end.
    cbn [mc_maxiter mc_b mc_args mc_d ch_x length] in *.
    rewrite R9, R8, R7, R6, H5, R4, R3, R2, R1. cbn [rs fst].
    rewrite <- consume_app. unfold mcmc_move, block_len. rewrite HB.
    replace (length (ch_x c)) with (Z.to_nat (s_maxiter (mca A))) by lia. reflexivity.
  Qed.

  Lemma dry_count_fun nf x : dry (count_fun nf x).
  Proof. eapply dry_bind; [apply dry_call_fun, HG|]. intros y _. apply dry_ret. Qed.
  Lemma dry_hmc_jac j h nf q : dry (hmc_jac j h nf q).
  Proof.
    assert (K : dry (numerical_gradient h nf q)).
    { unfold numerical_gradient. eapply (dry_bind _ _ _ (fun _ => True)); [|intros [[[x1 x2] g] n] _; apply dry_ret].
      apply (dry_foldM _ (fun _ => True)); [|exact I]. intros [[[x1 x2] g] n] i _. cbn zeta.
      eapply dry_bind; [apply dry_count_fun|]. intros [f2 n2] _.
      eapply dry_bind; [apply dry_count_fun|]. intros [f1 n1] _. apply dry_ret. }
    destruct j; [exact K|exact K|apply dry_raise].
  Qed.
  Lemma dry_leap_loop jac step : (forall nf q, dry (jac nf q)) -> forall n q p nf, dry (leap_loop jac step n q p nf).
  Proof.
    intros HJ. induction n as [|n IH]; intros q p nf; cbn [leap_loop]; [apply dry_ret|].
    eapply dry_bind; [apply HJ|]. intros [g m] _. apply IH.
  Qed.
  Lemma dry_leapfrog jac step n q p nf : (forall nf q, dry (jac nf q)) -> dry (leapfrog jac step n q p nf).
  Proof.
    intros HJ. unfold leapfrog. eapply dry_bind; [apply HJ|]. intros [g m] _. cbn zeta.
    eapply dry_bind; [apply dry_leap_loop, HJ|]. intros [[q1 p1] n1] _.
    eapply dry_bind; [apply HJ|]. intros [g1 m1] _. apply dry_ret.
  Qed.
  Lemma takes_hmc_move P cn : takes (hmc_move P cn) (hmc_step (hm_d P) (s_constraints (hm_args P))) (fun _ => True).
  Proof.
    destruct cn as [c nf]. unfold hmc_move, hmc_step. cbn zeta. eapply takes_bind; [apply takes_randn_vec|]. intros p0 _.
    eapply dry_bind; [apply dry_leapfrog; intros; apply dry_hmc_jac|]. intros [[q p] n1] _.
    eapply (takes_end _ _ _ (fun _ => True)).
    - rewrite search_space_use. destruct (accept_use_cases (s_constraints (hm_args P))) as [->| ->]; [apply dry_ret|].
      eapply dry_bind; [apply dry_count_fun|]. intros [u0 n2] _.
      eapply dry_bind; [apply dry_count_fun|]. intros [u1 n3] _.
      eapply takes_end; [apply takes_rand|]. intros u _. apply dry_ret.
    - intros [c' n2] _. eapply dry_bind; [apply dry_s_cb|]. intros _ _. apply dry_ret.
  Qed.
  Lemma takes_hmc_loop P n : forall cn,
    takes (hmc_loop P n cn) (times n (hmc_step (hm_d P) (s_constraints (hm_args P)))) (fun _ => True).
  Proof.
    induction n as [|n IH]; intros cn; cbn [hmc_loop]; [apply dry_ret|]. rewrite times_S.
    eapply takes_bind; [apply takes_hmc_move|]. intros cn' _. apply IH.
  Qed.
  Theorem C68_hmc A w a0 r s :
    exec (hmc_sample A) w a0 = (inl r, s) ->
    (0 < s_maxiter (hma A))%Z /\
    fst (rs s) =
      consume (first_mean (s_x0 (hma A)) (nd_len (s_bounds (hma A))) ++
               times (Z.to_nat (s_maxiter (hma A)) - 1)
                     (hmc_step (nd_len (s_bounds (hma A))) (s_constraints (hma A))))
              (begin (s_seed (hma A)) (fst w)).
  Proof.
    intros H. unfold exec, hmc_sample in H.
    apply bind_inv in H as ([lower upper] & s1 & H1 & H). apply (dry_inv _ _ _ _ _ (takes_s_check_x0 _)) in H1 as [R1 [HL HU]].
    cbn [fst snd] in HL, HU.
    apply bind_inv in H as (? & s2 & H2 & H). apply (dry_inv _ _ _ _ _ (dry_raise_if _ _)) in H2 as [R2 _].
    apply bind_inv in H as (steps & s3 & H3 & H). apply (dry_inv _ _ _ _ _ (takes_s_steps _ _ _ HL HU)) in H3 as [R3 HS].
    apply bind_inv in H as (? & s4 & H4 & H). apply (dry_inv _ _ _ _ _ (dry_raise_if _ _)) in H4 as [R4 _].
    apply bind_inv in H as (? & s5 & H5 & H). apply s_seed_cb_inv in H5.
    apply bind_inv in H as (xf & s6 & H6 & H). destruct (takes_s_first _ _ _ HL HU _ _ _ H6) as (us6 & R6 & -> & HM).
    apply bind_inv in H as ([f nf] & s7 & H7 & H). apply (dry_inv _ _ _ _ _ (dry_count_fun _ _)) in H7 as [R7 _].
    apply bind_inv in H as (? & s8 & H8 & H). apply (dry_inv _ _ _ _ _ (dry_s_first_cb _ _ _)) in H8 as [R8 _].
    cbn zeta in H.
    apply bind_inv in H as ([c n1] & s9 & H9 & H). destruct (takes_hmc_loop _ _ _ _ _ _ H9) as (us & R9 & -> & _).
    apply bind_inv in H as (i & s10 & H10 & H). apply (dry_inv _ _ _ _ _ (dry_np_argmin _)) in H10 as [R10 _].
    injection H as <- <-. split; [exact HM|].
    rewrite R10, R9, R8, R7, R6, H5, R4, R3, R2, R1. rewrite <- consume_app. reflexivity.
  Qed.
End Alg.
