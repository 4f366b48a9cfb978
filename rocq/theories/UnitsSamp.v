(** C62 for the samplers: the units of the variables do not matter (exact arithmetic). *)
From Coq Require Import Reals Lra.
From Verif Require Import Base Num NumR NumE Env Common DE CPSO NA Mat CMAES VDCMA Sample Rel Units UnitsRun.
Local Open Scope nat_scope.

Local Notation vec := (@Env.vec (@num_arith ENum)).
Local Notation matrix := (@Env.matrix (@num_arith ENum)).
Local Notation nd := (@Env.nd (@num_arith ENum)).
Local Notation event := (@Env.event (@num_arith ENum)).
Local Notation CbState := (@Env.CbState (@num_arith ENum)).
Local Notation SCbState := (@Env.SCbState (@num_arith ENum)).
Local Notation er' := (@T (@num_arith ENum)).

(** ** Specification *)
Section Spec.
  Variable U : Units.
  Definition usall (a : option (matrix * vec)) : option (matrix * vec) :=
    match a with Some (xs, fs) => Some (upop U xs, fs) | None => None end.
  Definition usstate (st : SCbState) : SCbState :=
    {| scb_x := amap U (scb_x st); scb_fun := scb_fun st; scb_nit := scb_nit st;
       scb_accept := scb_accept st; scb_all := usall (scb_all st) |}.
  Definition usevent (e : event) : event :=
    match e with
    | EEval x r => EEval (amap U x) r
    | ESCb x st r => ESCb (amap U x) (usstate st) r
    | e => e
    end.
  Definition usresult (r : SampRes) : SampRes :=
    mkSampRes (amap U (sr_x r)) (sr_fun r) (sr_nit r) (sr_accept r) (sr_nfev r) (usall (sr_all r)).
  (** The step sizes are fractions of the ranges: they stay. *)
  Definition usargs (a : SArgs) : SArgs :=
    mkSArgs (s_callable a) (ubounds U (s_bounds a)) (option_map (ux0 U) (s_x0 a)) (s_maxiter a)
            (s_stepsize a) (s_stepsize_array a) (s_seed a) (s_constraints a) (s_return_all a)
            (s_callback a).
  (** The same unit of length on every axis. *)
  Definition even (c : R) : Prop := forall i, fst (U i) = c.
End Spec.

(** ** Two more scalar laws *)
Lemma aff_minus c x y : (0 < fst c)%R -> er_sub (aff c x) (scl c y) = aff c (er_sub x y).
Proof.
  intro Hc. rewrite !(aff_eq c), !(scl_eq c) by exact Hc. destruct x, y; unfold er_sub; cbn; try reflexivity.
  f_equal. ring.
Qed.
Lemma sgn_mul k r p n z : (0 < k)%R -> er_sgn (k * r) p n z = er_sgn r p n z.
Proof. intro H. exact (sgn_scale (k, 0%R) H r p n z). Qed.
Lemma scl_cancel c x y z : (0 < fst c)%R -> er_mul (scl c x) (er_div y (scl c z)) = er_mul x (er_div y z).
Proof.
  intro Hc. pose proof (Rinv_0_lt_compat _ Hc) as Hi. rewrite !(scl_eq c) by exact Hc.
  assert (HD : er_div y match z with Fin r => Fin (fst c * r) | w => w end =
               match er_div y z with Fin r => Fin (/ fst c * r) | w => w end).
  { destruct y as [y| | |], z as [z| | |]; unfold er_div; rewrite ?sgn_mul by exact Hc; try reflexivity.
    - destruct (Req_EM_T (fst c * z) 0), (Req_EM_T z 0); try (exfalso; nra).
      + unfold er_sgn. destruct (Rlt_dec 0 y), (Rlt_dec y 0); reflexivity.
      + f_equal. field. split; lra.
    - f_equal. ring.
    - f_equal. ring.
    - unfold er_sgn. destruct (Rlt_dec 0 z), (Rlt_dec z 0); reflexivity.
    - unfold er_sgn. destruct (Rlt_dec 0 z), (Rlt_dec z 0); reflexivity. }
  rewrite HD. destruct x, (er_div y z); unfold er_mul; rewrite ?sgn_mul by assumption; try reflexivity.
  f_equal. field. lra.
Qed.

(** ** Parts of vectors *)
Fixpoint rests (n : nat) (U : Units) : Units := match n with 0 => U | S k => rests k (rest U) end.
Lemma rests_pos n : forall U, PosUnits U -> PosUnits (rests n U).
Proof. induction n as [|n IH]; intros U H; [exact H | apply IH, rest_pos, H]. Qed.
Lemma amap_app U x y : amap U (x ++ y) = amap U x ++ amap (rests (length x) U) y.
Proof. revert U. induction x as [|v x IH]; intro U; [reflexivity|]. cbn. rewrite IH. reflexivity. Qed.
Lemma amap_skipn n : forall U x, skipn n (amap U x) = amap (rests n U) (skipn n x).
Proof. induction n as [|n IH]; intros U [|v x]; cbn; try reflexivity. apply IH. Qed.
Lemma amap_firstn n : forall U x, firstn n (amap U x) = amap U (firstn n x).
Proof. induction n as [|n IH]; intros U [|v x]; cbn; try reflexivity. rewrite IH. reflexivity. Qed.
Lemma smap_skipn n : forall U x, skipn n (smap U x) = smap (rests n U) (skipn n x).
Proof. induction n as [|n IH]; intros U [|v x]; cbn; try reflexivity. apply IH. Qed.
Lemma smap_firstn n : forall U x, firstn n (smap U x) = smap U (firstn n x).
Proof. induction n as [|n IH]; intros U [|v x]; cbn; try reflexivity. rewrite IH. reflexivity. Qed.
Lemma rests_add n m : forall U, rests m (rests n U) = rests (n + m) U.
Proof. induction n as [|n IH]; intro U; [reflexivity | apply IH]. Qed.
Lemma amap_nth U i x d : i < length x -> nth i (amap U x) d = aff (U i) (nth i x d).
Proof.
  revert U i. induction x as [|v x IH]; intros U [|i] H; cbn in *; try lia; [reflexivity|].
  rewrite IH by lia. reflexivity.
Qed.
Lemma amap_upd U i v x : i < length x -> upd i (aff (U i) v) (amap U x) = amap U (upd i v x).
Proof.
  revert U i. induction x as [|w x IH]; intros U [|i] H; cbn in *; try lia; [reflexivity|].
  f_equal. change (U (S i)) with (rest U i). apply IH. lia.
Qed.

(** a proposal of mcmc: the coordinates from [j] on, [n] of them, are perturbed *)
Lemma amap_propose U j n (x z st : vec) : PosUnits U -> length (vmul z st) = n ->
  firstn j (amap U x) ++ vadd (firstn n (skipn j (amap U x))) (vmul z (smap (rests j U) st)) ++
    skipn (j + n) (amap U x) =
  amap U (firstn j x ++ vadd (firstn n (skipn j x)) (vmul z st) ++ skipn (j + n) x).
Proof.
  intros HU Hn. rewrite amap_app, amap_app, amap_firstn, !amap_skipn, amap_firstn.
  rewrite u_vmul, u_vadd by (apply rests_pos, HU).
  assert (Hv : length (vadd (firstn n (skipn j x)) (vmul z st)) = Nat.min n (length x - j)).
  { unfold vadd. rewrite map2_length, firstn_length, skipn_length. rewrite Hn. lia. }
  destruct (Nat.le_gt_cases (length x) j) as [Hj|Hj].
  - rewrite !skipn_all2 by lia. rewrite firstn_nil. reflexivity.
  - rewrite firstn_length, Nat.min_l by lia. f_equal. f_equal.
    destruct (Nat.le_gt_cases (length x) (j + n)) as [Hk|Hk].
    + rewrite skipn_all2 by lia. reflexivity.
    + rewrite Hv, Nat.min_l, rests_add by lia. reflexivity.
Qed.

Section Run.
  Context {E : Env ENum}.
  Variable U : Units.
  Hypothesis HU : PosUnits U.
  Variable cb' : matrix -> CbState -> @RNG ENum E * @US ENum E -> option nat * (@RNG ENum E * @US ENum E).
  Variable scb' : vec -> SCbState -> @RNG ENum E * @US ENum E -> option nat * (@RNG ENum E * @US ENum E).
  Hypothesis HCB : forall x st w, scb' (amap U x) (usstate U st) w = e_scb x st w.
  Let E' : Env ENum := rescaled U E cb' scb'.

  (** The caller's array of step sizes: as it was, or the lengths written into it. *)
  Definition RV (s1 : @St ENum E) (s2 : @St ENum E') : Prop :=
    rs s1 = rs s2 /\
    (argbuf s2 = argbuf s1 \/ argbuf s2 = option_map (map (smap U)) (argbuf s1)) /\
    tr s2 = map (usevent U) (tr s1).

  Notation rel' := (@rel ENum E E' RV).

  Lemma v_draw {A} (f : @RNG ENum E -> A * @RNG ENum E) : rel' (@draw ENum E A f) (@draw ENum E' A f) eq.
  Proof.
    intros s1 s2 [H1 [H2 H3]]. unfold draw.
    change (@RNG ENum E') with (@RNG ENum E). change (@US ENum E') with (@US ENum E).
    rewrite <- H1. destruct (f (fst (rs s1))) as [a r]. unfold RV. cbn. auto.
  Qed.
  Lemma v_rand : rel' rand rand eq. Proof. exact (v_draw e_rand). Qed.
  Lemma v_randn : rel' randn randn eq. Proof. exact (v_draw e_randn). Qed.
  Lemma v_randn_vec d : rel' (randn_vec d) (randn_vec d) (fun a b => a = b /\ length a = d).
  Proof.
    unfold randn_vec. induction d as [|d IH]; cbn [replicateM]; [apply rel_ret; auto|].
    eapply rel_bind; [apply v_randn|]. intros a ? <-.
    eapply rel_bind; [apply IH|]. intros l ? [<- HL]. apply rel_ret. cbn. auto.
  Qed.
  Lemma v_seed o : rel' (seed o) (seed o) eq.
  Proof.
    destruct o as [z|]; [|apply rel_ret; reflexivity].
    intros s1 s2 [H1 [H2 H3]]. unfold RV. cbn. rewrite <- H1. auto.
  Qed.
  Lemma v_set_arg (X : matrix) X' : X' = map (smap U) X -> rel' (set_arg X) (set_arg X') eq.
  Proof. intros -> s1 s2 [H1 [H2 H3]]. unfold RV. cbn. auto. Qed.
  Lemma v_call_fun x x' : x' = amap U x -> rel' (call_fun x) (call_fun x') eq.
  Proof.
    intros -> s1 s2 [H1 [H2 H3]]. unfold call_fun. cbn [e_fun E' rescaled].
    change (@e_fun ENum E' (amap U x) (rs s2)) with (@e_fun ENum E (unmap U (amap U x)) (rs s2)).
    rewrite <- H1, unmap_amap by exact HU.
    change (@RNG ENum E') with (@RNG ENum E). change (@US ENum E') with (@US ENum E).
    destruct (e_fun x (rs s1)) as [[y|e] w]; unfold RV; cbn; rewrite H3, map_app; auto.
  Qed.
  Lemma v_call_scb x x' st st' : x' = amap U x -> st' = usstate U st ->
    rel' (call_scb x st) (call_scb x' st') eq.
  Proof.
    intros -> -> s1 s2 [H1 [H2 H3]]. unfold call_scb.
    change (@e_scb ENum E') with scb'. rewrite <- H1.
    change (@RNG ENum E') with (@RNG ENum E). change (@US ENum E') with (@US ENum E).
    rewrite HCB. destruct (e_scb x st (rs s1)) as [r w]. unfold RV. cbn.
    rewrite H3, map_app. split; [auto|]. destruct r; reflexivity.
  Qed.
  Lemma v_urange V l : PosUnits V -> forall u,
    rel' (urange l u) (urange (amap V l) (amap V u)) (fun _ _ => True).
  Proof.
    intros HV u. unfold urange. rewrite (frange_amap V l u HV).
    destruct (frange l u); [apply rel_ret; exact I|apply rel_raise].
  Qed.
  Lemma v_uniform_row V l : PosUnits V -> forall u,
    rel' (uniform_row l u) (uniform_row (amap V l) (amap V u)) (fun x x' => x' = amap V x).
  Proof.
    revert V. induction l as [|a l IH]; intros V HV [|b u]; try (apply rel_ret; reflexivity).
    unfold uniform_row. cbn [combine amap mapM fst snd].
    apply rel_bind with (Q := fun x x' => x' = aff (V 0) x).
    - eapply rel_bind; [apply v_rand|]. intros r ? <-. apply rel_ret.
      exact (aff_uniform (V 0) (HV 0) a b r).
    - intros x ? ->. eapply rel_bind; [apply (IH (rest V) (rest_pos _ HV) u)|].
      intros y ? ->. apply rel_ret. reflexivity.
  Qed.

  Lemma v_uniform_gen V l : PosUnits V -> forall u,
    rel' (uniform_vec l u) (uniform_vec (amap V l) (amap V u)) (fun x x' => x' = amap V x).
  Proof. intros HV u. eapply rel_bind; [apply v_urange, HV|]. intros ? ? _. apply v_uniform_row, HV. Qed.

  (** ** The arguments *)
  Lemma v_unpack b : Pairs b ->
    rel' (unpack_bounds b) (unpack_bounds (ubounds U b))
         (fun p q => fst q = amap U (fst p) /\ snd q = amap U (snd p)).
  Proof.
    intro H. destruct b as [x|v|c m]; try apply rel_raise.
    destruct c as [|[|[|c]]]; try apply rel_raise. apply rel_ret. cbn [fst snd].
    rewrite !t_col by (try lia; exact H). split; reflexivity.
  Qed.
  Lemma v_check_x0 a : Pairs (s_bounds a) -> rel' (s_check_x0 a) (s_check_x0 (usargs U a))
    (fun p q => fst q = amap U (fst p) /\ snd q = amap U (snd p)).
  Proof.
    intro HP. unfold s_check_x0. cbn [usargs s_callable s_bounds s_x0]. rewrite t_ndim, t_nd_len.
    eapply rel_bind; [apply rel_raise_if|]. intros _ _ _.
    eapply rel_bind; [apply rel_raise_if|]. intros _ _ _.
    eapply rel_bind; [apply v_unpack, HP|]. intros [lo up] [lo' up'] HQ.
    apply rel_bind with (Q := eq); [|intros _ _ _; apply rel_ret; exact HQ].
    destruct (s_x0 a) as [[x|v|c m]|]; cbn [option_map ux0]; [apply rel_raise| | |apply rel_ret; reflexivity].
    - cbn [nd_len]. rewrite amap_length. apply rel_raise_if.
    - cbn [nd_len]. unfold upop. rewrite map_length. apply rel_raise_if.
  Qed.
  Lemma v_lengths V : PosUnits V -> forall (v lo up : vec),
    map2 (fun (s : er') lu => nmul s (nmul (nlit 5 (-1)) (nsub (snd lu) (fst lu)))) v (combine (amap V lo) (amap V up)) =
    smap V (map2 (fun (s : er') lu => nmul s (nmul (nlit 5 (-1)) (nsub (snd lu) (fst lu)))) v (combine lo up)).
  Proof.
    intros HV v. revert V HV. induction v as [|s v IH]; intros V HV [|l lo] [|u up]; try reflexivity.
    cbn [amap combine map2 smap fst snd]. f_equal; [|apply (IH _ (rest_pos _ HV))].
    cbn [nsub nmul nlit ENum EArith num_arith]. rewrite aff_sub by apply HV. rewrite !scl_mul_r by apply HV. reflexivity.
  Qed.
  Lemma v_steps a lo up : rel' (s_steps a lo up) (s_steps (usargs U a) (amap U lo) (amap U up))
    (fun v v' => v' = smap U v).
  Proof.
    unfold s_steps. cbn [usargs s_stepsize s_stepsize_array s_bounds]. rewrite t_nd_len. cbv zeta.
    eapply rel_bind; [apply rel_raise_if|]. intros _ _ _.
    destruct (match s_stepsize a with D0 x => D1 (repeat x (nd_len (s_bounds a))) | y => y end);
      try apply rel_raise.
    rewrite v_lengths by exact HU.
    eapply rel_bind; [apply rel_when, v_set_arg; reflexivity|]. intros _ _ _. apply rel_ret. reflexivity.
  Qed.
  Lemma v_seed_cb a : rel' (s_seed_cb a) (s_seed_cb (usargs U a)) eq.
  Proof. eapply rel_bind; [apply v_seed|]. intros _ _ _. apply rel_raise_if. Qed.
  Lemma v_first a lo up : rel' (s_first a lo up) (s_first (usargs U a) (amap U lo) (amap U up))
    (fun x x' => x' = amap U x).
  Proof.
    unfold s_first. cbn [usargs s_maxiter s_x0].
    eapply rel_bind; [apply rel_raise_if|]. intros _ _ _.
    apply rel_bind with (Q := fun x x' => x' = amap U x).
    - destruct (s_x0 a) as [[x|v|c m]|]; cbn [option_map ux0]; try apply rel_raise; [apply rel_ret; reflexivity|].
      apply v_uniform_gen, HU.
    - intros x ? ->. eapply rel_bind; [apply rel_raise_if|]. intros _ _ _. apply rel_ret. reflexivity.
  Qed.

  (** ** The chain *)
  Definition uch (c : Chain) : Chain := mkChain (upop U (ch_x c)) (ch_f c) (ch_acc c) (ch_imin c) (ch_fmin c).
  Lemma v_last c : ch_last_x (uch c) = amap U (ch_last_x c).
  Proof. unfold ch_last_x, uch, upop. cbn [ch_x]. rewrite map_length. apply u_nth. Qed.
  Lemma v_accept c x f : ch_accept (uch c) (amap U x) f = uch (ch_accept c x f).
  Proof.
    unfold ch_accept. cbn [uch ch_x ch_f ch_acc ch_imin ch_fmin]. unfold upop at 1. rewrite map_length.
    destruct (nltb f (ch_fmin c)); unfold uch, upop; cbn [ch_x ch_f ch_acc ch_imin ch_fmin];
      rewrite map_app; reflexivity.
  Qed.
  Lemma v_reject c : ch_reject (uch c) = uch (ch_reject c).
  Proof.
    unfold ch_reject. rewrite v_last. unfold uch, upop, ch_last_f. cbn [ch_x ch_f ch_acc ch_imin ch_fmin].
    rewrite map_app. reflexivity.
  Qed.
  Lemma v_first_cb a x f : rel' (s_first_cb a x f) (s_first_cb (usargs U a) (amap U x) f) eq.
  Proof.
    apply rel_when, v_call_scb; [reflexivity|]. unfold usstate. cbn. destruct (s_return_all a); reflexivity.
  Qed.
  Lemma v_cb a c : rel' (s_cb a c) (s_cb (usargs U a) (uch c)) eq.
  Proof.
    unfold s_cb. cbv zeta. cbn [uch ch_x ch_f ch_acc ch_imin ch_fmin]. unfold upop. rewrite map_length.
    apply rel_when, v_call_scb; [apply u_nth|]. unfold usstate. cbn [scb_x scb_fun scb_nit scb_accept scb_all].
    rewrite u_nth, firstn_map. cbn [usargs s_return_all]. destruct (s_return_all a); reflexivity.
  Qed.
  Lemma v_space (x lo up : vec) cn :
    in_search_space (amap U x) (amap U lo) (amap U up) cn = in_search_space x lo up cn.
  Proof. unfold in_search_space. destruct cn as [c|]; [|reflexivity]. destruct (String.eqb c _); reflexivity. Qed.

  (** ** mcmc *)
  Definition uMCP (P : MCParams) : MCParams :=
    mkMCParams (mc_d P) (mc_b P) (amap U (mc_lower P)) (amap U (mc_upper P)) (smap U (mc_step P))
               (mc_maxiter P) (usargs U (mc_args P)).
  Lemma v_propose P j x : rel' (mc_propose P j x) (mc_propose (uMCP P) j (amap U x))
    (fun y y' => y' = amap U y).
  Proof.
    unfold mc_propose. cbn [uMCP mc_d mc_b mc_step]. cbv zeta.
    set (jm := Nat.min (mc_d P) (j + mc_b P - 1)).
    eapply rel_bind; [apply v_randn_vec|]. intros z ? [<- Hz].
    unfold slice. rewrite smap_skipn, smap_firstn, smap_length.
    destruct (length (firstn (jm + 1 - j) (skipn j (mc_step P))) =? jm - j + 1) eqn:HL; cbn [negb raise_if];
      [|intros s1 s2 HR; split; [exact HR | reflexivity]].
    apply Nat.eqb_eq in HL.
    eapply rel_bind; [apply rel_ret; reflexivity|]. intros _ _ _. apply rel_ret.
    destruct (Nat.le_gt_cases j jm) as [Hj|Hj].
    - assert (Hk : jm + 1 = j + (jm + 1 - j)) by lia. remember (jm + 1 - j) as n eqn:Hn. rewrite Hk.
      apply amap_propose; [exact HU|]. unfold vmul. rewrite map2_length, HL, Hz. lia.
    - replace (jm + 1 - j) with 0 in HL by lia. cbn in HL. lia.
  Qed.
  Lemma v_mc_move P j c : rel' (mc_move P j c) (mc_move (uMCP P) j (uch c)) (fun d d' => d' = uch d).
  Proof.
    unfold mc_move. rewrite v_last. cbn [uMCP mc_lower mc_upper mc_args]. fold (uMCP P).
    eapply rel_bind; [apply v_propose|]. intros y ? ->. rewrite v_space.
    cbn [usargs s_constraints].
    apply rel_bind with (Q := fun d d' => d' = uch d).
    - destruct (in_search_space _ _ _ _); [|apply rel_ret; apply v_reject].
      eapply rel_bind; [apply v_call_fun; reflexivity|]. intros fy ? <-.
      eapply rel_bind; [apply v_rand|]. intros u ? <-. apply rel_ret.
      change (ch_last_f (uch c)) with (ch_last_f c).
      destruct (metropolis _ _); [apply v_accept | apply v_reject].
    - intros d ? ->. eapply rel_bind; [apply v_cb|]. intros _ _ _. apply rel_ret. reflexivity.
  Qed.
  Lemma v_len c : length (ch_x (uch c)) = length (ch_x c).
  Proof. apply map_length. Qed.
  Lemma v_mc_inner P js : forall c, rel' (mc_inner P js c) (mc_inner (uMCP P) js (uch c)) (fun d d' => d' = uch d).
  Proof.
    induction js as [|j js IH]; intros c; cbn [mc_inner]; [apply rel_ret; reflexivity|].
    eapply rel_bind; [apply v_mc_move|]. intros d ? ->. unfold mc_full. rewrite v_len. cbn [uMCP mc_maxiter]. fold (uMCP P).
    destruct (_ =? _)%Z; [apply rel_ret; reflexivity | apply IH].
  Qed.
  Lemma v_mc_outer P fl : forall c, rel' (mc_outer P fl c) (mc_outer (uMCP P) fl (uch c)) (fun d d' => d' = uch d).
  Proof.
    induction fl as [|fl IH]; intros c; cbn [mc_outer]; rewrite v_len; cbn [uMCP mc_maxiter mc_d mc_b]; fold (uMCP P);
      destruct (_ <? _)%Z; first [apply rel_ret; reflexivity | apply rel_raise | idtac].
    eapply rel_bind; [apply v_mc_inner|]. intros d ? ->. apply IH.
  Qed.

  Definition uMCA (A : MCArgs) : MCArgs := mkMCArgs (usargs U (mca A)) (mca_perc A).
  Lemma v_mcmc A : Pairs (s_bounds (mca A)) ->
    rel' (mcmc_sample A) (mcmc_sample (uMCA A)) (fun r r' => r' = usresult U r).
  Proof.
    intro HP. unfold mcmc_sample, mcmc_fuel. cbn [uMCA mca mca_perc]. cbv zeta.
    eapply rel_bind; [apply v_check_x0, HP|]. intros [lo up] [lo' up'] [H1 H2]. cbn [fst snd] in H1, H2. subst lo' up'.
    eapply rel_bind; [apply v_steps|]. intros st ? ->.
    eapply rel_bind; [apply rel_raise_if|]. intros _ _ _.
    cbn [usargs s_bounds]. fold (usargs U (mca A)). rewrite t_nd_len.
    eapply rel_bind; [apply rel_orelse|]. intros b ? <-.
    eapply rel_bind; [apply v_seed_cb|]. intros _ _ _.
    eapply rel_bind; [apply v_first|]. intros x ? ->.
    eapply rel_bind; [apply v_call_fun; reflexivity|]. intros f ? <-.
    eapply rel_bind; [apply v_first_cb|]. intros _ _ _.
    cbn [usargs s_maxiter s_return_all]. fold (usargs U (mca A)).
    match goal with |- context [mc_outer ?p _ (mkChain [x] _ _ _ _)] => set (P := p) end.
    eapply rel_bind.
    { exact (v_mc_outer P (Z.to_nat (s_maxiter (mca A))) (mkChain [x] [f] 0 0 ninf)). }
    intros c ? ->. apply rel_ret. unfold usresult. cbn [sr_x sr_fun sr_nit sr_accept sr_nfev sr_all uch ch_x ch_f ch_acc ch_imin ch_fmin].
    unfold upop. rewrite u_nth. destruct (s_return_all _); reflexivity.
  Qed.

  (** ** hmc, with one unit of length [k] for all axes and for the finite-difference step *)
  Variable k : R.
  Hypothesis Hk : even U k.
  Definition sc (x : er') : er' := scl (k, 0%R) x.
  Lemma sc_U i x : scl (U i) x = sc x.
  Proof. unfold sc, scl. rewrite Hk. reflexivity. Qed.
  Lemma k_pos : (0 < k)%R.
  Proof. rewrite <- (Hk 0). apply HU. Qed.
  Lemma even_rests n : forall V, even V k -> even (rests n V) k.
  Proof. induction n as [|n IH]; intros V HV; [exact HV|]. apply IH. intro i. apply HV. Qed.
  Lemma smap_even V x : even V k -> smap V x = map sc x.
  Proof.
    revert V. induction x as [|v x IH]; intros V HV; [reflexivity|]. cbn [smap map].
    assert (H0 : scl (V 0) v = sc v) by (unfold sc, scl; rewrite HV; reflexivity).
    rewrite H0, (IH (rest V)) by (intro i; apply HV). reflexivity.
  Qed.

  Lemma v_count nf x : rel' (count_fun nf x) (count_fun nf (amap U x)) eq.
  Proof.
    eapply rel_bind; [apply v_call_fun; reflexivity|]. intros y ? <-. apply rel_ret. reflexivity.
  Qed.
  (** x1[i] -= h and x2[i] += h *)
  Lemma v_minus i h x : i < length x ->
    upd i (nsub (nth i (amap U x) n0) (sc h)) (amap U x) = amap U (upd i (nsub (nth i x n0) h) x).
  Proof.
    intro Hi. rewrite amap_nth, <- (sc_U i) by exact Hi.
    cbn [nsub ENum EArith num_arith]. rewrite aff_minus by apply HU. apply amap_upd, Hi.
  Qed.
  Lemma v_plus i h x : i < length x ->
    upd i (nadd (nth i (amap U x) n0) (sc h)) (amap U x) = amap U (upd i (nadd (nth i x n0) h) x).
  Proof.
    intro Hi. rewrite amap_nth, <- (sc_U i) by exact Hi.
    cbn [nadd ENum EArith num_arith]. rewrite aff_add by apply HU. apply amap_upd, Hi.
  Qed.
  Lemma upd_len {A} i (v : A) l : length (upd i v l) = length l.
  Proof. revert i. induction l as [|a l IH]; intros [|i]; cbn; auto. Qed.

  Definition Acc (n : nat) (p q : vec * vec * vec * Z) : Prop :=
    let '(x1, x2, g, nf) := p in
    q = (amap U x1, amap U x2, g, nf) /\ length x1 = n /\ length x2 = n.
  Lemma v_ng_one n h p q i : i < n -> Acc n p q -> rel' (ng_one h p i) (ng_one (sc h) q i) (Acc n).
  Proof.
    intro Hi. destruct p as [[[x1 x2] g] nf]. intros (-> & L1 & L2). unfold ng_one. cbv zeta.
    rewrite v_minus, v_plus by lia.
    eapply rel_bind; [apply v_count|]. intros [f2 n2] ? <-.
    eapply rel_bind; [apply v_count|]. intros [f1 n1'] ? <-. apply rel_ret.
    rewrite v_plus, v_minus by (rewrite upd_len; lia). unfold Acc. rewrite !upd_len. auto.
  Qed.
  Lemma v_ng h n js : forall p q, (forall i, In i js -> i < n) -> Acc n p q ->
    rel' (foldM (ng_one h) p js) (foldM (ng_one (sc h)) q js) (Acc n).
  Proof.
    induction js as [|j js IH]; intros p q Hj HA; cbn [foldM]; [apply rel_ret, HA|].
    eapply rel_bind; [apply v_ng_one with (n := n); [apply Hj; left; reflexivity | exact HA]|].
    intros p' q' HA'. apply IH; [|exact HA']. intros i Hi. apply Hj. right. exact Hi.
  Qed.
  (** A gradient is the list of half the differences over the step. *)
  Definition Grad (h : er') (p q : vec * Z) : Prop :=
    snd q = snd p /\ exists l : vec,
      fst p = map (fun v => ndiv (nmul (nlit 5 (-1)) v) h) l /\
      fst q = map (fun v => ndiv (nmul (nlit 5 (-1)) v) (sc h)) l.
  Lemma v_gradient h nf x : rel' (numerical_gradient h nf x) (numerical_gradient (sc h) nf (amap U x)) (Grad h).
  Proof.
    unfold numerical_gradient. rewrite amap_length.
    eapply rel_bind; [apply v_ng with (n := length x) (q := (amap U x, amap U x, [], nf))|].
    - intros i Hi. apply in_seq in Hi. lia.
    - unfold Acc. auto.
    - intros [[[x1 x2] g] n1'] q (-> & _ & _). apply rel_ret. split; [reflexivity|].
      exists g. split; reflexivity.
  Qed.
  Lemma v_jac j h nf x : rel' (hmc_jac j h nf x) (hmc_jac j (sc h) nf (amap U x)) (Grad h).
  Proof. destruct j; [apply v_gradient | apply v_gradient | apply rel_raise]. Qed.

  Lemma v_kick h st p (l : vec) :
    kick (map sc st) p (map (fun v => ndiv (nmul (nlit 5 (-1)) v) (sc h)) l) =
    kick st p (map (fun v => ndiv (nmul (nlit 5 (-1)) v) h) l).
  Proof.
    unfold kick. f_equal. unfold vmul. revert l. induction st as [|s st IH]; intros [|v l]; try reflexivity.
    cbn [map map2]. f_equal; [|apply IH]. apply scl_cancel, k_pos.
  Qed.
  Lemma v_half_kick h st p (l : vec) :
    half_kick (map sc st) p (map (fun v => ndiv (nmul (nlit 5 (-1)) v) (sc h)) l) =
    half_kick st p (map (fun v => ndiv (nmul (nlit 5 (-1)) v) h) l).
  Proof.
    unfold half_kick. f_equal. revert l. induction st as [|s st IH]; intros [|v l]; try reflexivity.
    cbn [map map2]. f_equal; [|apply IH]. cbn [nmul ndiv nlit ENum EArith num_arith].
    unfold sc. rewrite scl_mul_r by apply k_pos. apply scl_cancel, k_pos.
  Qed.
  Lemma v_drift st q p : drift (map sc st) (amap U q) p = amap U (drift st q p).
  Proof.
    unfold drift. rewrite <- (smap_even U) by exact Hk.
    assert (Hm : @vmul (@num_arith ENum) (smap U st) p = smap U (vmul st p)).
    { clear - HU. revert p. generalize HU. generalize U. unfold vmul.
      induction st as [|s st IH]; intros V HV [|v p]; try reflexivity. cbn [smap map2].
      f_equal; [|apply IH, rest_pos, HV]. apply scl_mul_l, HV. }
    rewrite Hm. apply u_vadd, HU.
  Qed.
  Definition Leap (a b : vec * vec * Z) : Prop :=
    let '(q, p, nf) := a in b = (amap U q, p, nf).
  Lemma v_leap_loop j h st n : forall q p nf,
    rel' (leap_loop (hmc_jac j h) st n q p nf) (leap_loop (hmc_jac j (sc h)) (map sc st) n (amap U q) p nf) Leap.
  Proof.
    induction n as [|n IH]; intros q p nf; cbn [leap_loop]; [apply rel_ret; reflexivity|].
    eapply rel_bind; [apply v_jac|]. intros [g m] [g' m'] (Hm & l & H1 & H2). cbn [fst snd] in *. subst.
    cbv zeta. rewrite v_kick, v_drift. apply IH.
  Qed.
  Lemma v_leapfrog j h st n q p nf :
    rel' (leapfrog (hmc_jac j h) st n q p nf) (leapfrog (hmc_jac j (sc h)) (map sc st) n (amap U q) p nf) Leap.
  Proof.
    unfold leapfrog. eapply rel_bind; [apply v_jac|].
    intros [g m] [g' m'] (Hm & l & H1 & H2). cbn [fst snd] in *. subst. cbv zeta.
    rewrite v_half_kick, v_drift.
    eapply rel_bind; [apply v_leap_loop|]. intros [[q1 p1] m1] ? ->.
    eapply rel_bind; [apply v_jac|].
    intros [g2 m2] [g2' m2'] (Hm2 & l2 & H3 & H4). cbn [fst snd] in *. subst.
    rewrite v_half_kick. apply rel_ret. reflexivity.
  Qed.

  Definition uHMP (P : HMCParams) : HMCParams :=
    mkHMCParams (amap U (hm_lower P)) (amap U (hm_upper P)) (map sc (hm_step P)) (hm_nleap P) (hm_jac P)
                (sc (hm_fd P)) (hm_d P) (usargs U (hm_args P)).
  Definition ucn (p : Chain * Z) : Chain * Z := (uch (fst p), snd p).
  Lemma v_hmc_move P cn : rel' (hmc_move P cn) (hmc_move (uHMP P) (ucn cn)) (fun d d' => d' = ucn d).
  Proof.
    destruct cn as [c nf]. unfold hmc_move, ucn. cbn [fst snd]. cbv zeta. rewrite v_last.
    cbn [uHMP hm_lower hm_upper hm_step hm_nleap hm_jac hm_fd hm_d hm_args usargs s_constraints].
    fold (usargs U (hm_args P)).
    eapply rel_bind; [apply v_randn_vec|]. intros p0 ? [<- _].
    eapply rel_bind; [apply v_leapfrog|]. intros [[q p] m] ? ->. rewrite v_space.
    apply rel_bind with (Q := fun d d' => d' = ucn d).
    - destruct (in_search_space _ _ _ _); [|apply rel_ret; unfold ucn; cbn [fst snd]; rewrite v_reject; reflexivity].
      eapply rel_bind; [apply v_count|]. intros [f0 m0] ? <-.
      eapply rel_bind; [apply v_count|]. intros [f1 m1] ? <-.
      eapply rel_bind; [apply v_rand|]. intros u ? <-. apply rel_ret. unfold ucn. cbn [fst snd].
      destruct (metropolis _ _); [rewrite v_accept | rewrite v_reject]; reflexivity.
    - intros [d m1] ? ->. unfold ucn. cbn [fst snd].
      eapply rel_bind; [apply v_cb|]. intros _ _ _. apply rel_ret. reflexivity.
  Qed.
  Lemma v_hmc_loop P n : forall cn, rel' (hmc_loop P n cn) (hmc_loop (uHMP P) n (ucn cn)) (fun d d' => d' = ucn d).
  Proof.
    induction n as [|n IH]; intros cn; cbn [hmc_loop]; [apply rel_ret; reflexivity|].
    eapply rel_bind; [apply v_hmc_move|]. intros d ? ->. apply IH.
  Qed.
  Definition uHMA (A : HMCArgs) : HMCArgs := mkHMCArgs (usargs U (hma A)) (hma_nleap A) (hma_jac A) (sc (hma_fd A)).
  Lemma v_hmc A : Pairs (s_bounds (hma A)) ->
    rel' (hmc_sample A) (hmc_sample (uHMA A)) (fun r r' => r' = usresult U r).
  Proof.
    intro HP. unfold hmc_sample. cbn [uHMA hma hma_nleap hma_jac hma_fd]. cbv zeta.
    eapply rel_bind; [apply v_check_x0, HP|]. intros [lo up] [lo' up'] [H1 H2]. cbn [fst snd] in H1, H2. subst lo' up'.
    eapply rel_bind; [apply rel_raise_if|]. intros _ _ _.
    eapply rel_bind; [apply v_steps|]. intros st ? ->.
    eapply rel_bind; [apply rel_raise_if|]. intros _ _ _.
    eapply rel_bind; [apply v_seed_cb|]. intros _ _ _.
    eapply rel_bind; [apply v_first|]. intros x ? ->.
    eapply rel_bind; [apply v_count|]. intros [f nf] ? <-.
    eapply rel_bind; [apply v_first_cb|]. intros _ _ _.
    cbn [usargs s_maxiter s_return_all s_bounds]. fold (usargs U (hma A)). rewrite t_nd_len.
    rewrite smap_even by exact Hk.
    match goal with |- context [hmc_loop ?p _ (mkChain [x] _ _ _ _, _)] => set (P := p) end.
    eapply rel_bind.
    { exact (v_hmc_loop P (Z.to_nat (s_maxiter (hma A)) - 1) (mkChain [x] [f] 0 0 ninf, nf)). }
    intros [c m] ? ->. unfold ucn. cbn [fst snd uch ch_f].
    eapply rel_bind; [apply rel_np_argmin|]. intros i ? <-. apply rel_ret.
    unfold usresult. cbn [sr_x sr_fun sr_nit sr_accept sr_nfev sr_all uch ch_x ch_f ch_acc ch_imin ch_fmin].
    unfold upop. rewrite u_nth. destruct (s_return_all _); reflexivity.
  Qed.
End Run.
