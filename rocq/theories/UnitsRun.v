(** C62: the units in which the variables are measured do not matter (exact arithmetic). *)
From Coq Require Import Reals Lra.
From Verif Require Import Base Num NumR NumE Env Common DE CPSO NA Mat CMAES VDCMA Sample Rel Units.
Local Open Scope nat_scope.

Local Notation vec := (@Env.vec (@num_arith ENum)).
Local Notation matrix := (@Env.matrix (@num_arith ENum)).
Local Notation nd := (@Env.nd (@num_arith ENum)).
Local Notation event := (@Env.event (@num_arith ENum)).
Local Notation CbState := (@Env.CbState (@num_arith ENum)).
Local Notation SCbState := (@Env.SCbState (@num_arith ENum)).

(** ** Specification *)
Section Spec.
  Variable U : Units.

  Definition upop (X : matrix) : matrix := map (amap U) X.

  (** The recorded generations.  [raw]: the first one is recorded in internal coordinates (na), so
      it does not change with the units. *)
  Definition uslices (raw : bool) (xs : list matrix) : list matrix :=
    match raw, xs with
    | true, s :: t => s :: map upop t
    | _, _ => map upop xs
    end.
  Definition uall (raw : bool) (a : option (list matrix * list vec)) : option (list matrix * list vec) :=
    match a with Some (xs, fs) => Some (uslices raw xs, fs) | None => None end.
  Definition ustate (raw : bool) (st : CbState) : CbState :=
    {| cb_x := amap U (cb_x st); cb_fun := cb_fun st; cb_nfev := cb_nfev st; cb_nit := cb_nit st;
       cb_all := uall raw (cb_all st) |}.
  Definition uevent (raw : bool) (e : event) : event :=
    match e with
    | EEval x r => EEval (amap U x) r
    | ECb X st r => ECb (upop X) (ustate raw st) r
    | e => e
    end.

  (** The bounds and the initial guess in the new units. *)
  Fixpoint urows (V : Units) (rows : matrix) : matrix :=
    match rows with [] => [] | r :: t => map (aff (V 0)) r :: urows (rest V) t end.
  Definition ubounds (b : nd) : nd := match b with D2 c rows => D2 c (urows U rows) | b => b end.
  Definition ux0 (x : nd) : nd :=
    match x with D0 v => D0 v | D1 v => D1 (amap U v) | D2 c m => D2 c (upop m) end.
  Definition uargs (a : Args) : Args :=
    mkArgs (a_callable a) (ubounds (a_bounds a)) (option_map ux0 (a_x0 a)) (a_x0_array a)
           (a_maxiter a) (a_popsize a) (a_seed a) (a_xtol a) (a_ftol a) (a_constraints a)
           (a_workers a) (a_backend a) (a_return_all a) (a_verbosity a) (a_callback a).

  (** A list of (lower, upper) pairs. *)
  Definition Pairs (b : nd) : Prop :=
    match b with D2 2 rows => Forall (fun r => length r = 2) rows | _ => True end.

  (** The environment in which the objective takes its argument in the new units. *)
  Definition rescaled (E : Env ENum)
      (cb : matrix -> CbState -> @RNG ENum E * @US ENum E -> option nat * (@RNG ENum E * @US ENum E))
      (scb : vec -> SCbState -> @RNG ENum E * @US ENum E -> option nat * (@RNG ENum E * @US ENum E))
    : Env ENum :=
    @mkEnv ENum (@RNG ENum E) (@US ENum E) (@e_seed ENum E) (@e_rand ENum E) (@e_randn ENum E)
           (@e_perm ENum E) (@e_randint ENum E) (fun y w => e_fun (unmap U y) w)
           cb scb (@e_sched ENum E) (@e_rank ENum E) (@e_mpisize ENum E) (@e_bcast ENum E)
           (@e_allreduce ENum E) (@e_argsort ENum E) (@e_percentile ENum E) (@e_median ENum E)
           (@e_eigh ENum E) (@e_empty ENum E).

  (** xtol is a length: whether a run that ends because of ftol reports 0 or 1 depends on it. *)
  Definition SameStatus (same : Prop) (c c' : Z) : Prop :=
    (same -> c' = c) /\ (c' = c \/ (c = 0 \/ c = 1)%Z /\ (c' = 0 \/ c' = 1)%Z).
  Definition SameResult (raw : bool) (same : Prop) (r r' : OptRes) : Prop :=
    r_x r' = amap U (r_x r) /\ r_fun r' = r_fun r /\ r_nfev r' = r_nfev r /\ r_nit r' = r_nit r /\
    r_success r' = r_success r /\ SameStatus same (r_status r) (r_status r') /\
    message (r_status r') = Some (r_message r') /\ message (r_status r) = Some (r_message r) /\
    r_all r' = uall raw (r_all r).
End Spec.

Section Run.
  Context {E : Env ENum}.
  Variable U : Units.
  Hypothesis HU : PosUnits U.
  Variable raw : bool.
  Variable same : Prop.
  Variable cb' : matrix -> CbState -> @RNG ENum E * @US ENum E -> option nat * (@RNG ENum E * @US ENum E).
  Variable scb' : vec -> SCbState -> @RNG ENum E * @US ENum E -> option nat * (@RNG ENum E * @US ENum E).
  Hypothesis HCB : forall X st w, cb' (upop U X) (ustate U raw st) w = e_cb X st w.
  Let E' : Env ENum := rescaled U E cb' scb'.

  Definition RU (s1 : @St ENum E) (s2 : @St ENum E') : Prop :=
    rs s1 = rs s2 /\ argbuf s2 = option_map (upop U) (argbuf s1) /\
    tr s2 = map (uevent U raw) (tr s1).

  Notation rel' := (@rel ENum E E' RU).

  Lemma t_draw {A} (f : @RNG ENum E -> A * @RNG ENum E) : rel' (@draw ENum E A f) (@draw ENum E' A f) eq.
  Proof.
    intros s1 s2 [H1 [H2 H3]]. unfold draw.
    change (@RNG ENum E') with (@RNG ENum E). change (@US ENum E') with (@US ENum E).
    rewrite <- H1. destruct (f (fst (rs s1))) as [a r]. unfold RU. cbn. auto.
  Qed.
  Lemma t_rand : rel' rand rand eq. Proof. exact (t_draw e_rand). Qed.
  Lemma t_randn : rel' randn randn eq. Proof. exact (t_draw e_randn). Qed.
  Lemma t_perm n : rel' (perm n) (perm n) eq. Proof. exact (t_draw (e_perm n)). Qed.
  Lemma t_randint n : rel' (randint n) (randint n) eq. Proof. exact (t_draw (e_randint n)). Qed.
  Lemma t_seed o : rel' (seed o) (seed o) eq.
  Proof.
    destruct o as [z|]; [|apply rel_ret; reflexivity].
    intros s1 s2 [H1 [H2 H3]]. unfold RU. cbn. rewrite <- H1. auto.
  Qed.
  Lemma t_set_arg X X' : X' = upop U X -> rel' (set_arg X) (set_arg X') eq.
  Proof. intros -> s1 s2 [H1 [H2 H3]]. unfold RU. cbn. auto. Qed.
  Lemma t_call_fun x x' : x' = amap U x -> rel' (call_fun x) (call_fun x') eq.
  Proof.
    intros -> s1 s2 [H1 [H2 H3]]. unfold call_fun. cbn [e_fun E' rescaled].
    change (@e_fun ENum E' (amap U x) (rs s2)) with (@e_fun ENum E (unmap U (amap U x)) (rs s2)).
    rewrite <- H1, unmap_amap by exact HU.
    change (@RNG ENum E') with (@RNG ENum E). change (@US ENum E') with (@US ENum E).
    destruct (e_fun x (rs s1)) as [[y|e] w]; unfold RU; cbn; rewrite H3, map_app; auto.
  Qed.
  Lemma t_call_cb X X' st st' : X' = upop U X -> st' = ustate U raw st ->
    rel' (call_cb X st) (call_cb X' st') eq.
  Proof.
    intros -> -> s1 s2 [H1 [H2 H3]]. unfold call_cb.
    change (@e_cb ENum E') with cb'. rewrite <- H1.
    change (@RNG ENum E') with (@RNG ENum E). change (@US ENum E') with (@US ENum E).
    rewrite HCB. destruct (e_cb X st (rs s1)) as [r w]. unfold RU. cbn.
    rewrite H3, map_app. split; [auto|]. destruct r; reflexivity.
  Qed.
  Lemma t_rand_mat p d : rel' (rand_mat p d) (rand_mat p d) eq.
  Proof. apply rel_replicateM, rel_replicateM, t_rand. Qed.
  Lemma t_randn_vec d : rel' (randn_vec d) (randn_vec d) eq.
  Proof. apply rel_replicateM, t_randn. Qed.
  Lemma t_uniform lo hi : rel' (uniform lo hi) (uniform lo hi) eq.
  Proof. eapply rel_bind; [apply t_rand|]. intros a b <-. apply rel_ret. reflexivity. Qed.
  Lemma t_uniform1 lo hi : rel' (uniform1 lo hi) (uniform1 lo hi) eq.
  Proof.
    eapply rel_bind with (Q := fun _ _ => True); [|intros; apply t_uniform].
    unfold urange. destruct (frange _ _); [apply rel_ret; exact I|apply rel_raise].
  Qed.

  Lemma t_mapM {A A' B B'} (f : A -> @M ENum E B) (f' : A' -> @M ENum E' B') (h : A -> A')
      (k : B -> B') l :
    (forall a, In a l -> rel' (f a) (f' (h a)) (fun b b' => b' = k b)) ->
    rel' (mapM f l) (mapM f' (map h l)) (fun b b' => b' = map k b).
  Proof.
    induction l as [|x l IH]; intro H; cbn; [apply rel_ret; reflexivity|].
    eapply rel_bind; [apply H; left; reflexivity|]. intros a ? ->.
    eapply rel_bind; [apply IH; intros; apply H; right; assumption|].
    intros bs ? ->. apply rel_ret. reflexivity.
  Qed.
  Lemma t_replicateM {B B'} n (m : @M ENum E B) (m' : @M ENum E' B') (k : B -> B') :
    rel' m m' (fun b b' => b' = k b) ->
    rel' (replicateM n m) (replicateM n m') (fun b b' => b' = map k b).
  Proof.
    intro H. induction n as [|n IH]; cbn; [apply rel_ret; reflexivity|].
    eapply rel_bind; [exact H|]. intros a ? ->.
    eapply rel_bind; [exact IH|]. intros l ? ->. apply rel_ret. reflexivity.
  Qed.

  Lemma t_urange V l : PosUnits V -> forall u,
    rel' (urange l u) (urange (amap V l) (amap V u)) (fun _ _ => True).
  Proof.
    intros HV u. unfold urange. rewrite (frange_amap V l u HV).
    destruct (frange l u); [apply rel_ret; exact I|apply rel_raise].
  Qed.
  Lemma t_uniform_row V l : PosUnits V -> forall u,
    rel' (uniform_row l u) (uniform_row (amap V l) (amap V u)) (fun x x' => x' = amap V x).
  Proof.
    revert V. induction l as [|a l IH]; intros V HV [|b u]; try (apply rel_ret; reflexivity).
    unfold uniform_row. cbn [combine amap mapM fst snd].
    apply rel_bind with (Q := fun x x' => x' = aff (V 0) x).
    - eapply rel_bind; [apply t_rand|]. intros r ? <-. apply rel_ret.
      exact (aff_uniform (V 0) (HV 0) a b r).
    - intros x ? ->. eapply rel_bind; [apply (IH (rest V) (rest_pos _ HV) u)|].
      intros y ? ->. apply rel_ret. reflexivity.
  Qed.
  Lemma t_uniform_vec l u : rel' (uniform_vec l u) (uniform_vec (amap U l) (amap U u))
    (fun x x' => x' = amap U x).
  Proof. eapply rel_bind; [apply t_urange, HU|]. intros ? ? _. apply t_uniform_row, HU. Qed.
  Lemma t_uniform_mat p l u : rel' (uniform_mat p l u) (uniform_mat p (amap U l) (amap U u))
    (fun x x' => x' = upop U x).
  Proof. eapply rel_bind; [apply t_urange, HU|]. intros ? ? _. apply t_replicateM, t_uniform_row, HU. Qed.

  Lemma half : Rlit 5 (-1) = (1 / 2)%R.
  Proof. cbn. lra. Qed.
  Lemma t_lhs_scale V l : PosUnits V -> forall u row,
    lhs_scale (amap V l) (amap V u) row = amap V (lhs_scale l u row).
  Proof.
    revert V. induction l as [|a l IH]; intros V HV [|b u] [|x row]; try reflexivity.
    unfold lhs_scale. cbn [map3 amap]. f_equal; [|exact (IH (rest V) (rest_pos _ HV) u row)].
    cbn [nadd nmul nsub nlit ENum EArith num_arith].
    rewrite aff_sub, aff_half by first [apply HV | apply half].
    rewrite !scl_mul_r by apply HV. apply add_aff, HV.
  Qed.
  Lemma t_lhs p d l u : rel' (lhs p d l u) (lhs p d (amap U l) (amap U u)) (fun a b => b = upop U a).
  Proof.
    eapply rel_bind; [apply t_rand_mat|]. intros a b <-. cbn zeta.
    eapply rel_bind; [apply rel_replicateM, t_perm|]. intros c c' <-.
    apply rel_ret. unfold upop. rewrite !map_map. apply map_ext. intro k. apply t_lhs_scale, HU.
  Qed.
  Lemma t_seed_and_cb a : rel' (seed_and_cb a) (seed_and_cb (uargs U a)) eq.
  Proof. eapply rel_bind; [apply t_seed|]. intros _ _ _. apply rel_raise_if. Qed.

  (** ** Evaluation of a population *)
  Definition Evu (p q : matrix * vec) : Prop := fst q = upop U (fst p) /\ snd q = snd p.

  Lemma t_eval_serial X : rel' (eval_serial X) (eval_serial (upop U X)) eq.
  Proof.
    unfold eval_serial, upop. eapply rel_conseq; [apply t_mapM with (k := fun y : er => y)|].
    - intros x _. eapply rel_conseq; [apply t_call_fun; reflexivity|]. intros y ? <-. reflexivity.
    - intros u ? ->. cbv beta. symmetry. apply map_id.
  Qed.
  Lemma t_eval_joblib X : rel' (eval_joblib X) (eval_joblib (upop U X)) eq.
  Proof.
    unfold eval_joblib. assert (HL : length (upop U X) = length X) by apply map_length. rewrite HL.
    apply rel_bind with (Q := eq).
    - intros s1 s2 HR. split; [exact HR|]. cbn. destruct HR as [H _]. rewrite <- H. reflexivity.
    - intros o ? <-. apply rel_foldM. intros f i. unfold upop. rewrite u_nth.
      eapply rel_bind; [apply t_call_fun; reflexivity|]. intros y ? <-. apply rel_ret. reflexivity.
  Qed.
  Lemma t_eval_pop m X : m <> Mpi -> rel' (eval_pop m X) (eval_pop m (upop U X)) Evu.
  Proof.
    intro Hm. destruct m; [| |congruence].
    - eapply rel_bind; [apply t_eval_serial|]. intros u ? <-. apply rel_ret. split; reflexivity.
    - eapply rel_bind; [apply t_eval_joblib|]. intros u ? <-. apply rel_ret. split; reflexivity.
  Qed.
  Lemma t_eval_kind sync w b : b <> Some "mpi"%string ->
    rel' (eval_kindM sync w b) (eval_kindM sync w b) (fun x y => x = y /\ x <> Mpi).
  Proof.
    intro Hb. unfold eval_kindM. destruct (eval_kind sync w b) as [m|e] eqn:Em; [|apply rel_raise].
    apply rel_ret. split; [reflexivity|]. intros ->. revert Em. unfold eval_kind, wrapper_kind.
    destruct b as [b|].
    - destruct (String.eqb b "") eqn:Eb.
      + cbn. destruct (negb _), sync; cbn; discriminate.
      + assert (Hm : String.eqb b "mpi" = false).
        { apply String.eqb_neq. intros ->. apply Hb. reflexivity. }
        destruct (in_prefer b) eqn:Ei; rewrite ?Ei, ?Hm; cbn.
        * destruct (negb _), sync; cbn; discriminate.
        * destruct sync; cbn; discriminate.
    - cbn. destruct (negb _), sync; cbn; discriminate.
  Qed.

  (** ** Selection *)
  Definition Tol (c c' : option Z) : Prop :=
    (same -> c' = c) /\
    (c' = c \/ (c = Some 0 \/ c = Some 1)%Z /\ (c' = Some 0 \/ c' = Some 1)%Z).

  Lemma Tol_refl c : Tol c c.
  Proof. split; auto. Qed.
  Lemma t_sel_x c u x v : sel_x (upop U c) u (upop U x) v = upop U (sel_x c u x v).
  Proof.
    unfold sel_x. revert c x v.
    induction u as [|b u IH]; intros [|a c] [|y x] [|d v]; try reflexivity.
    cbn [upop map combine map2 fst snd]. f_equal; [|apply IH]. destruct (nltb b d); reflexivity.
  Qed.

  Definition Selu (a b : SelSync) : Prop :=
    ss_cand b = upop U (ss_cand a) /\ ss_x b = upop U (ss_x a) /\ ss_xfun b = ss_xfun a /\
    ss_best b = amap U (ss_best a) /\ ss_bestfun b = ss_bestfun a /\ ss_candfun b = ss_candfun a /\
    Tol (ss_status a) (ss_status b).

  Lemma t_norm (xt : @T (@num_arith ENum)) x y : rigid U ->
    nleb (vnorm (vsub (amap U x) (amap U y))) xt = nleb (vnorm (vsub x y)) xt.
  Proof. intro HR. rewrite u_rigid_norm by assumption. reflexivity. Qed.

  Lemma t_tol0 (xt : @T (@num_arith ENum)) x y (f : bool) (c : option Z) : (same -> rigid U) ->
    Tol (if nleb (vnorm (vsub x y)) xt && f then Some 0%Z else if f then Some 1%Z else c)
        (if nleb (vnorm (vsub (amap U x) (amap U y))) xt && f then Some 0%Z
         else if f then Some 1%Z else c).
  Proof.
    intro Hs. split.
    - intro HR. rewrite t_norm by exact (Hs HR). reflexivity.
    - destruct f; rewrite ?andb_false_r, ?andb_true_r; [right | left; reflexivity].
      destruct (nleb _ xt), (nleb _ xt); auto.
  Qed.

  Hypothesis Hsame : same -> rigid U.
  Lemma t_selection it c c' xb x xf mi xt ft ev1 ev2 :
    rel' (ev1 c) (ev2 c') Evu ->
    rel' (selection_sync it c xb x xf mi xt ft ev1)
         (selection_sync it c' (amap U xb) (upop U x) xf mi xt ft ev2) Selu.
  Proof.
    intros H. unfold selection_sync. eapply rel_bind; [apply H|].
    intros [c1 f1] [c2 f2] [H1 H2]. cbn [fst snd] in H1, H2. subst c2 f2.
    eapply rel_bind; [apply rel_np_argmin|]. intros _ _ _.
    apply rel_ret. unfold sync_sel, Selu. cbn [ss_cand ss_x ss_xfun ss_best ss_bestfun ss_candfun ss_status].
    rewrite t_sel_x. unfold upop. rewrite u_nth. 
    repeat (split; [reflexivity|]). apply t_tol0, Hsame.
  Qed.

  Definition SelAu (a b : SelAsync) : Prop :=
    sa_x b = upop U (sa_x a) /\ sa_xfun b = sa_xfun a /\ sa_best b = amap U (sa_best a) /\
    sa_bestfun b = sa_bestfun a /\ sa_candfun b = sa_candfun a /\ Tol (sa_status a) (sa_status b).

  Lemma t_selection_async c xb xbf x xf xt ft i :
    rel' (selection_async c xb xbf x xf xt ft i)
         (selection_async (amap U c) (amap U xb) xbf (upop U x) xf xt ft i) SelAu.
  Proof.
    eapply rel_bind; [apply t_call_fun; reflexivity|]. intros y ? <-. apply rel_ret.
    unfold async_sel.
    destruct (nleb y (nth i xf n0)); [destruct (nleb y xbf)|]; unfold SelAu;
      cbn [sa_x sa_xfun sa_best sa_bestfun sa_candfun sa_status];
      unfold upop; rewrite ?u_upd; 
      repeat (split; [reflexivity|]); try apply Tol_refl; apply t_tol0, Hsame.
  Qed.

  (** ** Recording *)
  Lemma t_fit_rows n (v : matrix) : fit_rows n (upop U v) = option_map (upop U) (fit_rows n v).
  Proof.
    unfold fit_rows, upop. rewrite map_length. destruct (length v =? n); [reflexivity|].
    destruct v as [|a [|b v]]; cbn; try reflexivity. f_equal.
    induction n as [|n IH]; cbn; [reflexivity|]. f_equal. exact IH.
  Qed.
  Lemma t_slices xs s : raw = false \/ xs <> [] -> uslices U raw (xs ++ [s]) = uslices U raw xs ++ [upop U s].
  Proof.
    unfold uslices. destruct raw; intros [H|H]; try discriminate; try (rewrite map_app; reflexivity).
    destruct xs as [|a xs]; [congruence|]. cbn [app]. rewrite map_app. reflexivity.
  Qed.

  (** Something has been recorded already, or nothing is recorded in internal coordinates. *)
  Definition Begun (r : option Rec) : Prop :=
    raw = false \/ match r with Some (xs, _) => xs <> [] | None => True end.

  Lemma t_rec_write n mi it pop pf best best' r :
    Begun r -> best' = (amap U (fst best), snd best) ->
    rel' (rec_write n mi it pop pf best r)
         (rec_write n mi it (upop U pop) pf best' (uall U raw r))
         (fun a b => b = uall U raw a /\ Begun a).
  Proof.
    intros HB ->. unfold rec_write, rec_put.
    destruct n as [n|]; [|apply rel_ret; split; [reflexivity | right; exact I]].
    destruct r as [[rx rf]|]; cbn [uall]; [|apply rel_ret; split; [reflexivity | right; exact I]].
    assert (Hx : raw = false \/ rx <> []) by exact HB.
    assert (HB' : forall s fs, Begun (Some (rx ++ [s], fs))).
    { intros. right. intro H. apply app_eq_nil in H. destruct H. discriminate. }
    apply rel_bind with (Q := fun a b => b = (uslices U raw (fst a), snd a) /\ Begun (Some a)).
    - destruct (mi <? it)%Z; [apply rel_raise|].
      destruct (0 <? n)%Z; [|apply rel_ret; cbn [fst snd]; rewrite t_slices by exact Hx; split; [reflexivity | apply HB']].
      unfold upop at 1. rewrite firstn_map. fold (upop U (firstn (Z.to_nat n) pop)). rewrite t_fit_rows.
      apply rel_bind with (Q := fun a b => b = upop U a).
      { destruct (fit_rows _ (firstn _ pop)); cbn; [apply rel_ret; reflexivity | apply rel_raise]. }
      intros a ? ->.
      eapply rel_bind; [apply rel_orelse|]. intros fs ? <-.
      apply rel_ret. cbn [fst snd]. rewrite t_slices by exact Hx. split; [reflexivity | apply HB'].
    - intros [a1 a2] b [-> H]. apply rel_ret. cbn [uall fst snd]. split; [reflexivity | exact H].
  Qed.

  Lemma t_rec_write0 nout mi pop pf x (y : @T (@num_arith ENum)) : raw = false ->
    rel' (rec_write nout mi 1 pop pf (x, y)
            (match nout with Some _ => Some ([], []) | None => None end))
         (rec_write nout mi 1 (upop U pop) pf (amap U x, y)
            (match nout with Some _ => Some ([], []) | None => None end))
         (fun a b => b = uall U raw a /\ Begun a).
  Proof.
    intro H. pose proof (t_rec_write nout mi 1 pop pf (x, y) (amap U x, y)
      (match nout with Some _ => Some ([], []) | None => None end) (or_introl H) eq_refl) as HW.
    destruct nout; [|exact HW]. cbn [uall uslices] in HW. unfold uslices in HW. rewrite H in HW.
    rewrite H. exact HW.
  Qed.

  Lemma t_best_row X pf : best_row (upop U X) pf = (amap U (fst (best_row X pf)), snd (best_row X pf)).
  Proof. unfold best_row, upop. rewrite u_nth. reflexivity. Qed.

  (** ** The loop *)
  Definition uview {S} (d1 : @Drv ENum E S) (d2 : @Drv ENum E' S) (a b : S) : Prop :=
    d_pop d2 b = upop U (d_pop d1 a) /\ d_x d2 b = amap U (d_x d1 a) /\ d_fun d2 b = d_fun d1 a /\
    (forall it, d_nfev d2 it b = d_nfev d1 it a) /\ d_rec d2 b = uall U raw (d_rec d1 a).

  Lemma t_start {S} (d1 : @Drv ENum E S) (d2 : @Drv ENum E' S) cb it a b :
    uview d1 d2 a b ->
    rel' (when cb (call_cb (d_pop d1 a) (cb_state d1 it a)))
         (when cb (call_cb (d_pop d2 b) (cb_state d2 it b))) eq.
  Proof.
    intros (V1 & V2 & V3 & V4 & V5). apply rel_when, t_call_cb; [exact V1|].
    unfold cb_state, ustate. cbn. rewrite V2, V3, V4, V5. reflexivity.
  Qed.

  Lemma t_drive {S} (d1 : @Drv ENum E S) (d2 : @Drv ENum E' S) (K : S -> S -> Prop) cb :
    (forall it a b, K a b ->
       rel' (d_step d1 it a) (d_step d2 it b) (fun p q => K (fst p) (fst q) /\ Tol (snd p) (snd q))) ->
    (forall it a b, K a b -> rel' (d_post d1 it a) (d_post d2 it b) K) ->
    (forall a b, K a b -> uview d1 d2 a b) ->
    forall n it a b, K a b ->
      rel' (drive d1 cb n it a) (drive d2 cb n it b) (SameResult U raw same).
  Proof.
    intros HS HP HV. induction n as [|n IH]; intros it a b HK; cbn [drive]; [apply rel_raise|].
    eapply rel_bind; [apply HS; exact HK|].
    intros [a' c] [b' c'] [HK' Hc]. cbn [fst snd] in *.
    pose proof (HV _ _ HK') as (V1 & V2 & V3 & V4 & V5).
    eapply rel_bind; [apply t_start, HV, HK'|]. intros _ _ _.
    assert (Hfin : forall z z', SameStatus same z z' ->
      rel' (result d1 (it + 1) a' z) (result d2 (it + 1) b' z') (SameResult U raw same)).
    { intros z z' [HS1 HS2]. unfold result.
      assert (Hm : forall m m', message z = Some m -> message z' = Some m' -> (0 <=? z')%Z = (0 <=? z)%Z ->
        SameResult U raw same
          {| r_x := d_x d1 a'; r_success := (0 <=? z)%Z; r_status := z; r_message := m;
             r_fun := d_fun d1 a'; r_nfev := d_nfev d1 (it + 1) a'; r_nit := it + 1; r_all := d_rec d1 a' |}
          {| r_x := d_x d2 b'; r_success := (0 <=? z')%Z; r_status := z'; r_message := m';
             r_fun := d_fun d2 b'; r_nfev := d_nfev d2 (it + 1) b'; r_nit := it + 1; r_all := d_rec d2 b' |}).
      { intros m m' H1 H2 H3. unfold SameResult. cbn.
        rewrite V2, V3, V4, V5, H3. repeat split; auto. }
      destruct HS2 as [-> | [Hz Hz']].
      - destruct (message z) as [m|] eqn:Em; cbn [orelse]; [|apply rel_raise].
        intros s1 s2 HR. split; [exact HR|]. cbn. apply Hm; auto.
      - assert (exists m, message z = Some m) as [m Em] by (destruct Hz; subst; eexists; reflexivity).
        assert (exists m, message z' = Some m) as [m' Em'] by (destruct Hz'; subst; eexists; reflexivity).
        assert (H3 : (0 <=? z')%Z = (0 <=? z)%Z) by (destruct Hz, Hz'; subst; reflexivity).
        rewrite Em, Em'. intros s1 s2 HR. split; [exact HR|]. cbn. apply Hm; auto. }
    destruct Hc as [Hc1 Hc2]. destruct Hc2 as [-> | [Hz Hz']].
    - destruct c as [c|]; [apply Hfin; split; auto|].
      eapply rel_bind; [apply HP; exact HK'|]. intros u v Huv. apply IH, Huv.
    - destruct Hz, Hz'; subst; apply Hfin; (split; [|auto]); intro HR; specialize (Hc1 HR); congruence.
  Qed.

  (** ** The arguments *)
  Lemma urows_length V rows : length (urows V rows) = length rows.
  Proof. revert V. induction rows as [|r t IH]; intro V; cbn; [reflexivity|]. rewrite IH. reflexivity. Qed.
  Lemma t_nd_len b : nd_len (ubounds U b) = nd_len b.
  Proof. destruct b; cbn; try reflexivity. apply urows_length. Qed.
  Lemma t_ndim k b : ndim_is k (ubounds U b) = ndim_is k b.
  Proof. destruct b; reflexivity. Qed.
  Lemma t_ndim0 k x : ndim_is k (ux0 U x) = ndim_is k x.
  Proof. destruct x; reflexivity. Qed.
  Lemma t_len0 x : nd_len (ux0 U x) = nd_len x.
  Proof. destruct x; cbn; try reflexivity; [apply amap_length | apply map_length]. Qed.
  Lemma t_cols0 x : nd_cols (ux0 U x) = nd_cols x.
  Proof. destruct x; reflexivity. Qed.
  Lemma t_rows0 x : nd_rows (ux0 U x) = upop U (nd_rows x).
  Proof. destruct x; reflexivity. Qed.
  Lemma t_vec0 x : nd_vec (ux0 U x) = amap U (nd_vec x).
  Proof. destruct x; reflexivity. Qed.

  Lemma t_col k V rows : k < 2 -> Forall (fun r : vec => length r = 2) rows ->
    map (fun r : vec => nth k r (@n0 (@num_arith ENum))) (urows V rows) =
    amap V (map (fun r : vec => nth k r (@n0 (@num_arith ENum))) rows).
  Proof.
    intros Hk H. revert V. induction H as [|r rows Hr _ IH]; intro V; cbn [urows map amap]; [reflexivity|].
    f_equal; [|apply IH]. rewrite (nth_indep _ _ (aff (V 0) (@n0 (@num_arith ENum)))) by (rewrite map_length; apply Nat.lt_le_trans with (1 := Hk), Nat.eq_le_incl; symmetry; exact Hr).
    exact (map_nth (aff (V 0)) r (@n0 (@num_arith ENum)) k).
  Qed.
  Lemma t_unpack b : Pairs b ->
    rel' (unpack_bounds b) (unpack_bounds (ubounds U b))
         (fun p q => fst q = amap U (fst p) /\ snd q = amap U (snd p) /\
                     exists rows, b = D2 2 rows /\ p = (map (fun r => nth 0 r n0) rows, map (fun r => nth 1 r n0) rows)).
  Proof.
    intro H. destruct b as [x|v|c m]; try apply rel_raise.
    destruct c as [|[|[|c]]]; try apply rel_raise. apply rel_ret. cbn [fst snd].
    rewrite !t_col by (try lia; exact H). repeat split. exists m. auto.
  Qed.
  Lemma t_check_pop a : rel' (check_pop a) (check_pop (uargs U a)) eq.
  Proof.
    unfold check_pop. cbn [a_callable a_bounds a_x0 a_popsize uargs]. rewrite t_ndim, t_nd_len.
    eapply rel_bind; [apply rel_raise_if|]. intros _ _ _.
    eapply rel_bind; [apply rel_raise_if|]. intros _ _ _.
    destruct (a_x0 a) as [x|]; cbn [option_map]; rewrite ?t_ndim0, ?t_cols0, ?t_len0;
      (eapply rel_bind; [apply rel_raise_if|]); intros _ _ _;
      (eapply rel_bind; [apply rel_raise_if|]); intros _ _ _; apply rel_raise_if.
  Qed.
  Lemma t_pop0 (o : option nd) p d l u :
    rel' (match o with Some x => ret (nd_rows x) | None => lhs p d l u end)
         (match option_map (ux0 U) o with Some x => ret (nd_rows x)
          | None => lhs p d (amap U l) (amap U u) end)
         (fun X X' => X' = upop U X).
  Proof.
    destruct o as [x|]; cbn [option_map]; [|apply t_lhs]. rewrite t_rows0. apply rel_ret. reflexivity.
  Qed.

  (** ** de *)
  Lemma t_pick is X k : pick is (upop U X) k = option_map (amap U) (pick is X k).
  Proof. unfold pick, upop. destruct (nth_error is k); cbn; [|reflexivity]. rewrite u_nth. reflexivity. Qed.
  Lemma t_mutate st is F X gb :
    mutate st is F (upop U X) (amap U gb) = option_map (amap U) (mutate st is F X gb).
  Proof.
    destruct st; cbn [mutate]; rewrite !t_pick;
      repeat (match goal with |- context [option_map _ (pick ?a ?b ?c)] =>
                destruct (pick a b c); cbn [option_map]; [|reflexivity] end);
      f_equal; first [rewrite u_vsub by exact HU | rewrite u_four by exact HU];
      rewrite u_vscale by exact HU; apply u_vadd, HU.
  Qed.
  Lemma t_delete_shuffle p i : rel' (delete_shuffle p i) (delete_shuffle p i) eq.
  Proof. eapply rel_bind; [apply t_perm|]. intros a b <-. apply rel_ret. reflexivity. Qed.
  Lemma t_np_randint n : rel' (np_randint n) (np_randint n) eq.
  Proof. destruct n; [apply rel_raise | apply t_randint]. Qed.
  Lemma t_crossover CR ir r1 V x :
    crossover CR ir r1 (amap U V) (amap U x) = amap U (crossover CR ir r1 V x).
  Proof. apply (u_choose (fun jr => (fst jr =? ir) || nleb (snd jr) CR)). Qed.
  Lemma t_replace : forall V (x l u r : vec), PosUnits V ->
    map3 (fun x b r => if nltb x (fst b) || nltb (snd b) x then r else x)
         (amap V x) (combine (amap V l) (amap V u)) (amap V r) =
    amap V (map3 (fun x b r => if nltb x (fst b) || nltb (snd b) x then r else x) x (combine l u) r).
  Proof.
    intros V x. revert V. induction x as [|a x IH]; intros V [|b l] [|c u] [|d r] HV; try reflexivity.
    cbn [amap combine map3 fst snd]. f_equal; [|apply IH, rest_pos, HV].
    cbn [nltb ENum EArith num_arith]. rewrite !aff_ltb by apply HV.
    destruct (er_ltb a b || er_ltb c a); reflexivity.
  Qed.
  Lemma t_de_cons c l u x :
    rel' (de_cons c l u x) (de_cons c (amap U l) (amap U u) (amap U x)) (fun y y' => y' = amap U y).
  Proof.
    destruct c; [apply rel_ret; reflexivity|].
    eapply rel_bind; [apply t_uniform_vec|]. intros r ? ->. apply rel_ret. apply t_replace, HU.
  Qed.

  Definition uDEP (P : DEParams) : DEParams :=
    mkDEParams (de_F P) (de_CR P) (de_strat P) (de_con P) (de_p P) (de_d P) (amap U (de_lower P))
      (amap U (de_upper P)) (de_maxiter P) (de_xtol P) (de_ftol P) (de_mode P) (de_nout P)
      (de_alias P) (de_list P).
  Definition uDES (s : DES) : DES :=
    mkDES (upop U (des_X s)) (amap U (des_gbest s)) (des_pbestfit s) (des_gfit s) (des_pfit s)
          (uall U raw (des_rec s)).

  Lemma t_cross_rows CR irand : forall r1 V X,
    map3 (fun ir r1v x => crossover CR ir (fst r1v) (snd r1v) x) irand (combine r1 (upop U V)) (upop U X) =
    upop U (map3 (fun ir r1v x => crossover CR ir (fst r1v) (snd r1v) x) irand (combine r1 V) X).
  Proof.
    induction irand as [|ir irand IH]; intros [|r r1] [|v V] [|x X]; try reflexivity.
    cbn [upop map combine map3 fst snd]. f_equal; [apply t_crossover | apply IH].
  Qed.
  Lemma t_de_cands P r1 X gb :
    rel' (de_cands P r1 X gb) (de_cands (uDEP P) r1 (upop U X) (amap U gb)) (fun Y Y' => Y' = upop U Y).
  Proof.
    unfold de_cands. cbn [uDEP de_p de_strat de_F de_d de_CR de_con de_lower de_upper].
    eapply rel_bind; [apply rel_mapM; intros; apply t_delete_shuffle|]. intros iss ? <-.
    apply rel_bind with (Q := fun V V' => V' = upop U V).
    { rewrite <- (map_id iss) at 2. apply t_mapM. intros is _. rewrite t_mutate.
      destruct (mutate _ _ _ _ _); cbn; [apply rel_ret; reflexivity | apply rel_raise]. }
    intros V ? ->.
    eapply rel_bind; [apply rel_replicateM, t_np_randint|]. intros ir ? <-.
    rewrite t_cross_rows. apply t_mapM. intros x _. apply t_de_cons.
  Qed.
  Lemma t_set_alias P X : rel' (set_alias P X) (set_alias (uDEP P) (upop U X)) eq.
  Proof. apply rel_when, t_set_arg. reflexivity. Qed.
  Definition Knd (s s' : DES) : Prop := s' = uDES s /\ Begun (des_rec s).

  Lemma t_de_sync P it r1 s : de_mode P <> Mpi ->
    rel' (de_sync P it r1 s) (de_sync (uDEP P) it r1 (uDES s))
      (fun p q => fst q = uDES (fst p) /\ des_rec (fst p) = des_rec s /\ Tol (snd p) (snd q)).
  Proof.
    intro Hm. unfold de_sync. cbn [uDES des_X des_gbest des_pbestfit des_rec].
    eapply rel_bind; [apply t_de_cands|]. intros Y ? ->.
    cbn [uDEP de_maxiter de_xtol de_ftol de_mode].
    eapply rel_bind; [apply t_selection, t_eval_pop, Hm|].
    intros a b (S1 & S2 & S3 & S4 & S5 & S6 & S7). rewrite S2.
    eapply rel_bind; [apply t_set_alias|]. intros _ _ _. apply rel_ret. cbn [fst snd des_rec].
    unfold uDES. cbn. rewrite S3, S4, S5, S6. auto.
  Qed.

  Lemma t_de_cand1 P r1 i X gb :
    rel' (de_cand1 P r1 i X gb) (de_cand1 (uDEP P) r1 i (upop U X) (amap U gb)) (fun y y' => y' = amap U y).
  Proof.
    unfold de_cand1. cbn [uDEP de_p de_strat de_F de_d de_CR de_con de_lower de_upper].
    eapply rel_bind; [apply t_delete_shuffle|]. intros is ? <-.
    apply rel_bind with (Q := fun V V' => V' = amap U V).
    { rewrite t_mutate. destruct (mutate _ _ _ _ _); cbn; [apply rel_ret; reflexivity | apply rel_raise]. }
    intros V ? ->.
    eapply rel_bind; [apply t_np_randint|]. intros ir ? <-.
    unfold upop. rewrite u_nth, t_crossover. apply t_de_cons.
  Qed.
  Lemma t_de_async_one P r1 acc acc' i :
    fst acc' = uDES (fst acc) ->
    rel' (de_async_one P r1 acc i) (de_async_one (uDEP P) r1 acc' i)
      (fun p q => fst q = uDES (fst p) /\ des_rec (fst p) = des_rec (fst acc) /\ Tol (snd p) (snd q)).
  Proof.
    intro H. unfold de_async_one. rewrite H. cbn [uDES des_X des_gbest des_pbestfit des_rec des_gfit des_pfit].
    eapply rel_bind; [apply t_de_cand1|]. intros y ? ->.
    cbn [uDEP de_xtol de_ftol].
    eapply rel_bind; [apply t_selection_async|].
    intros a b (S1 & S2 & S3 & S4 & S5 & S6). rewrite S1.
    eapply rel_bind; [apply t_set_alias|]. intros _ _ _. apply rel_ret. cbn [fst snd des_rec].
    unfold uDES. cbn. rewrite S2, S3, S4, S5. auto.
  Qed.
  Lemma t_foldM {A A' B} (R : A -> A' -> Prop) (f : A -> B -> @M ENum E A) (f' : A' -> B -> @M ENum E' A') l :
    (forall a a' b, R a a' -> rel' (f a b) (f' a' b) R) ->
    forall a a', R a a' -> rel' (foldM f a l) (foldM f' a' l) R.
  Proof.
    intro H. induction l as [|b l IH]; intros a a' HR; cbn; [apply rel_ret, HR|].
    eapply rel_bind; [apply H, HR|]. intros x x' Hx. apply IH, Hx.
  Qed.
  Lemma Tol_end c c' (b : bool) : Tol c c' ->
    Tol (match c with None => if b then Some (-1)%Z else None | Some x => Some x end)
        (match c' with None => if b then Some (-1)%Z else None | Some x => Some x end).
  Proof.
    intros [H1 [-> | [[-> | ->] [-> | ->]]]]; split; auto; try (intro HR; specialize (H1 HR); congruence).
  Qed.
  Lemma t_de_async P it r1 s :
    rel' (de_async P it r1 s) (de_async (uDEP P) it r1 (uDES s))
      (fun p q => fst q = uDES (fst p) /\ des_rec (fst p) = des_rec s /\ Tol (snd p) (snd q)).
  Proof.
    unfold de_async. eapply rel_bind.
    - apply (t_foldM (fun p q => fst q = uDES (fst p) /\ des_rec (fst p) = des_rec s /\ Tol (snd p) (snd q))).
      + intros a a' i (H1 & H2 & H3). eapply rel_conseq; [apply t_de_async_one, H1|].
        intros p q (Q1 & Q2 & Q3). rewrite <- H2. auto.
      + cbn. repeat split; auto.
    - intros [s1 c1] [s2 c2] (H1 & H2 & H3). cbn [fst snd] in *. subst s2. apply rel_ret.
      cbn [fst snd]. split; [reflexivity|]. split; [exact H2|].
      cbn [uDEP de_maxiter]. apply Tol_end, H3.
  Qed.

  Lemma t_de_step P sync it s s' : de_mode P <> Mpi -> Knd s s' ->
    rel' (de_step P sync it s) (de_step (uDEP P) sync it s')
      (fun p q => Knd (fst p) (fst q) /\ Tol (snd p) (snd q)).
  Proof.
    intros Hm [-> HB]. unfold de_step. cbn [uDEP de_p de_d de_list].
    eapply rel_bind; [apply t_rand_mat|]. intros r1 ? <-.
    eapply rel_bind; [apply rel_raise_if|]. intros _ _ _.
    apply rel_bind with (Q := fun p q =>
      fst q = uDES (fst p) /\ des_rec (fst p) = des_rec s /\ Tol (snd p) (snd q)).
    { destruct sync; [apply t_de_sync, Hm | apply t_de_async]. }
    intros [s1 c1] [s2 c2] (H1 & H2 & H3). cbn [fst snd] in *. subst s2.
    cbn [uDES des_X des_gbest des_pbestfit des_rec des_gfit des_pfit uDEP de_nout de_maxiter].
    rewrite t_best_row.
    eapply rel_bind; [apply t_rec_write; [rewrite H2; exact HB | reflexivity]|].
    intros r ? [-> Hr]. apply rel_ret. cbn [fst snd]. split; [split; [reflexivity | exact Hr] | exact H3].
  Qed.

  Lemma t_de (a : Args) sync F CR st : raw = false -> Pairs (a_bounds a) -> a_backend a <> Some "mpi"%string ->
    rel' (de a sync F CR st) (de (uargs U a) sync F CR st) (SameResult U raw same).
  Proof.
    intros Hraw HP Hb. unfold de. cbn [uargs a_workers a_backend a_bounds a_constraints a_popsize a_x0
      a_x0_array a_return_all a_verbosity a_maxiter a_xtol a_ftol]. rewrite t_nd_len.
    eapply rel_bind; [apply t_eval_kind, Hb|]. intros m ? [<- Hm].
    eapply rel_bind; [apply t_unpack, HP|]. intros [lo up] [lo' up'] (H1 & H2 & _). cbn [fst snd] in H1, H2. subst lo' up'.
    eapply rel_bind; [apply rel_orelse|]. intros con ? <-.
    replace (match option_map (ux0 U) (a_x0 a) with Some _ => negb (a_x0_array a) | None => false end)
      with (match a_x0 a with Some _ => negb (a_x0_array a) | None => false end) by (destruct (a_x0 a); reflexivity).
    replace (match option_map (ux0 U) (a_x0 a) with Some _ => a_x0_array a | None => false end)
      with (match a_x0 a with Some _ => a_x0_array a | None => false end) by (destruct (a_x0 a); reflexivity).
    eapply rel_bind; [apply t_pop0|]. intros X ? ->.
    eapply rel_bind; [apply rel_raise_if|]. intros _ _ _.
    eapply rel_bind; [apply t_eval_pop, Hm|]. intros [X1 pf] [X2 pf'] [H1 H2]. cbn [fst snd] in H1, H2. subst X2 pf'.
    eapply rel_bind; [apply rel_when, t_set_arg; reflexivity|]. intros _ _ _.
    eapply rel_bind; [apply rel_np_argmin|]. intros gb ? <-. cbv zeta.
    eapply rel_bind; [apply rel_rec_alloc|]. intros nout ? <-.
    unfold upop at 2. rewrite u_nth.
    eapply rel_bind.
    { apply t_rec_write0, Hraw. }
    intros r ? [-> Hr].
    set (P := mkDEParams F CR st con (Z.to_nat (a_popsize a)) (nd_len (a_bounds a)) lo up (a_maxiter a)
      (a_xtol a) (a_ftol a) m nout _ _).
    set (s := mkDES X1 (nth gb X1 []) pf (nth gb pf n0) pf r).
    change (mkDEParams F CR st con (Z.to_nat (a_popsize a)) (nd_len (a_bounds a)) (amap U lo) (amap U up)
      (a_maxiter a) (a_xtol a) (a_ftol a) m nout _ _) with (uDEP P).
    change (mkDES (upop U X1) (nth gb (upop U X1) []) pf (nth gb pf n0) pf (uall U raw r)) with
      (mkDES (upop U X1) (nth gb (map (amap U) X1) []) pf (nth gb pf n0) pf (uall U raw r)).
    rewrite u_nth.
    change (mkDES (upop U X1) (amap U (nth gb X1 [])) pf (nth gb pf n0) pf (uall U raw r)) with (uDES s).
    eapply rel_bind.
    { apply (t_start (de_drv P sync) (de_drv (uDEP P) sync)). repeat split. }
    intros _ _ _. apply t_drive with (K := Knd).
    - intros it x y HK. apply t_de_step; [exact Hm | exact HK].
    - intros it x y HK. apply rel_ret, HK.
    - intros x y [-> _]. repeat split.
    - split; [reflexivity | exact Hr].
  Qed.

  (** ** cpso and pso *)
  Definition uvel (V : matrix) : matrix := map (smap U) V.

  Lemma t_velocity1 c (w c1 c2 v x r1 r2 pb gb : @T (@num_arith ENum)) : (0 < fst c)%R ->
    velocity1 w c1 c2 (scl c v) (aff c x) r1 r2 (aff c pb) (aff c gb) =
    scl c (velocity1 w c1 c2 v x r1 r2 pb gb).
  Proof.
    intro Hc. unfold velocity1. cbn [nadd nmul nsub ENum EArith num_arith].
    rewrite !aff_sub, !scl_mul_r, !scl_add by exact Hc. reflexivity.
  Qed.
  Definition uPSO (P : PSOParams) : PSOParams :=
    mkPSOParams (ps_w P) (ps_c1 P) (ps_c2 P) (ps_con P) (ps_gamma P) (ps_delta P) (ps_p P) (ps_d P)
      (amap U (ps_lower P)) (amap U (ps_upper P)) (ps_maxiter P) (ps_xtol P) (ps_ftol P) (ps_mode P)
      (ps_nout P) (ps_alias P) (ps_list P).
  Lemma t_velocity P : forall r1 r2 X V pb gb,
    velocity (uPSO P) (amap U X) (smap U V) (amap U pb) (amap U gb) r1 r2 =
    smap U (velocity P X V pb gb r1 r2).
  Proof.
    unfold velocity. cbn [uPSO ps_w ps_c1 ps_c2]. intros r1 r2 X. revert r1 r2.
    generalize HU. generalize U. induction X as [|x X IH]; intros W HW r1 r2 [|v V] pb gb; try reflexivity.
    destruct r1 as [|a r1], r2 as [|b r2], pb as [|p pb], gb as [|q gb]; try reflexivity.
    cbn [amap smap combine map2 fst snd]. f_equal; [apply t_velocity1, HW|].
    apply (IH (rest W) (rest_pos _ HW)).
  Qed.
  Lemma t_shrink_side out : (forall c x y, (0 < fst c)%R -> out (aff c x) (aff c y) = out x y) ->
    forall X V b, @shrink_side ENum out (amap U X) (smap U V) (amap U b) = shrink_side out X V b.
  Proof.
    intros Ho X. unfold shrink_side. generalize HU. generalize U.
    induction X as [|x X IH]; intros W HW [|v V] [|b bs]; try reflexivity.
    cbn [amap smap map3 concat]. rewrite (IH (rest W) (rest_pos _ HW)). f_equal.
    cbn [nadd nsub ndiv ENum EArith num_arith].
    rewrite aff_add, Ho, aff_sub, scl_div by apply HW. reflexivity.
  Qed.
  Lemma t_shrink l u X V : shrink (amap U l) (amap U u) (amap U X) (smap U V) = shrink l u X V.
  Proof.
    unfold shrink. rewrite !t_shrink_side; [reflexivity | |];
      intros; cbn [nltb ENum EArith num_arith]; apply aff_ltb; assumption.
  Qed.
  Definition umove (xv : vec * vec) : vec * vec := (amap U (fst xv), smap U (snd xv)).
  Lemma t_mutation P X V pb gb r1 r2 :
    pso_mutation (uPSO P) (amap U X) (smap U V) (amap U pb) (amap U gb) r1 r2 =
    umove (pso_mutation P X V pb gb r1 r2).
  Proof.
    unfold pso_mutation, pso_cons, umove. rewrite t_velocity. cbn [uPSO ps_con ps_lower ps_upper].
    destruct (ps_con P); cbn [fst snd].
    - rewrite u_vadd by exact HU. reflexivity.
    - rewrite t_shrink, u_scale_r, u_vadd by exact HU. reflexivity.
  Qed.

  Definition uPSS (s : PSOS) : PSOS :=
    mkPSOS (upop U (pss_X s)) (uvel (pss_V s)) (upop U (pss_pbest s)) (amap U (pss_gbest s))
           (pss_pbestfit s) (pss_gfit s) (pss_pfit s) (uall U raw (pss_rec s)).

  Lemma t_moves P r1 r2 s : pso_moves (uPSO P) r1 r2 (uPSS s) = map umove (pso_moves P r1 r2 s).
  Proof.
    unfold pso_moves. destruct s as [X V pb gb pbf gf pf r].
    cbn [uPSS pss_X pss_V pss_pbest pss_gbest]. revert V pb r1 r2.
    induction X as [|x X IH]; intros [|v V] pb r1 r2; try reflexivity.
    destruct pb as [|p pb]; [reflexivity|]. destruct r1 as [|a r1], r2 as [|b r2]; try reflexivity.
    cbn [upop uvel map combine map3 fst snd]. f_equal; [apply t_mutation | apply IH].
  Qed.
  Lemma t_pso_sync P it r1 r2 s : ps_mode P <> Mpi ->
    rel' (pso_sync P it r1 r2 s) (pso_sync (uPSO P) it r1 r2 (uPSS s))
      (fun p q => fst q = uPSS (fst p) /\ pss_rec (fst p) = pss_rec s /\ Tol (snd p) (snd q)).
  Proof.
    intro Hm. unfold pso_sync. cbv zeta.
    eapply rel_bind; [apply rel_raise_if|]. intros _ _ _. rewrite t_moves.
    cbn [uPSO uPSS pss_gbest pss_pbest pss_pbestfit ps_maxiter ps_xtol ps_ftol ps_mode pss_rec].
    rewrite !map_map. cbn [umove fst snd].
    eapply rel_bind.
    - apply t_selection. rewrite <- (map_map fst (amap U)). apply t_eval_pop, Hm.
    - intros a b (S1 & S2 & S3 & S4 & S5 & S6 & S7). apply rel_ret. cbn [fst snd pss_rec].
      split; [|split; [reflexivity | exact S7]]. unfold uPSS, uvel.
      cbn [pss_X pss_V pss_pbest pss_gbest pss_pbestfit pss_gfit pss_pfit pss_rec].
      rewrite S1, S2, S3, S4, S5, S6, map_map. reflexivity.
  Qed.
  Lemma t_pso_set_alias P X : rel' (pso_set_alias P X) (pso_set_alias (uPSO P) (upop U X)) eq.
  Proof. apply rel_when, t_set_arg. reflexivity. Qed.
  Lemma t_pso_async_one P r1 r2 acc acc' i :
    fst acc' = uPSS (fst acc) ->
    rel' (pso_async_one P r1 r2 acc i) (pso_async_one (uPSO P) r1 r2 acc' i)
      (fun p q => fst q = uPSS (fst p) /\ pss_rec (fst p) = pss_rec (fst acc) /\ Tol (snd p) (snd q)).
  Proof.
    intro H. unfold pso_async_one. rewrite H. cbv zeta.
    cbn [uPSS pss_X pss_V pss_gbest pss_pbest pss_pbestfit pss_gfit pss_pfit pss_rec].
    unfold upop, uvel. rewrite !u_nth, u_nths, t_mutation. cbn [umove fst snd].
    rewrite <- !u_upd.
    eapply rel_bind; [apply t_pso_set_alias|]. intros _ _ _.
    cbn [uPSO ps_xtol ps_ftol].
    eapply rel_bind; [apply t_selection_async|].
    intros a b (S1 & S2 & S3 & S4 & S5 & S6). apply rel_ret. cbn [fst snd pss_rec].
    split; [|split; [reflexivity | exact S6]]. unfold uPSS. 
    cbn [pss_X pss_V pss_pbest pss_gbest pss_pbestfit pss_gfit pss_pfit pss_rec].
    rewrite S1, S2, S3, S4, S5. reflexivity.
  Qed.
  Lemma t_pso_async P it r1 r2 s :
    rel' (pso_async P it r1 r2 s) (pso_async (uPSO P) it r1 r2 (uPSS s))
      (fun p q => fst q = uPSS (fst p) /\ pss_rec (fst p) = pss_rec s /\ Tol (snd p) (snd q)).
  Proof.
    unfold pso_async. eapply rel_bind.
    - apply (t_foldM (fun p q => fst q = uPSS (fst p) /\ pss_rec (fst p) = pss_rec s /\ Tol (snd p) (snd q))).
      + intros a a' i (H1 & H2 & H3). eapply rel_conseq; [apply t_pso_async_one, H1|].
        intros p q (Q1 & Q2 & Q3). rewrite <- H2. auto.
      + cbn. repeat split; auto.
    - intros [s1 c1] [s2 c2] (H1 & H2 & H3). cbn [fst snd] in *. subst s2. apply rel_ret.
      cbn [fst snd]. split; [reflexivity|]. split; [exact H2|].
      cbn [uPSO ps_maxiter]. apply Tol_end, H3.
  Qed.
  Definition Kps (s s' : PSOS) : Prop := s' = uPSS s /\ Begun (pss_rec s).

  Lemma t_pso_step P sync it s s' : ps_mode P <> Mpi -> Kps s s' ->
    rel' (pso_step P sync it s) (pso_step (uPSO P) sync it s')
      (fun p q => Kps (fst p) (fst q) /\ Tol (snd p) (snd q)).
  Proof.
    intros Hm [-> HB]. unfold pso_step. cbn [uPSO ps_p ps_d].
    eapply rel_bind; [apply t_rand_mat|]. intros r1 ? <-.
    eapply rel_bind; [apply t_rand_mat|]. intros r2 ? <-.
    apply rel_bind with (Q := fun p q =>
      fst q = uPSS (fst p) /\ pss_rec (fst p) = pss_rec s /\ Tol (snd p) (snd q)).
    { destruct sync; [apply t_pso_sync, Hm | apply t_pso_async]. }
    intros [s1 c1] [s2 c2] (H1 & H2 & H3). cbn [fst snd] in *. subst s2.
    cbn [uPSS pss_X pss_V pss_gbest pss_pbest pss_pbestfit pss_gfit pss_pfit pss_rec uPSO ps_nout ps_maxiter].
    rewrite t_best_row.
    eapply rel_bind; [apply t_rec_write; [rewrite H2; exact HB | reflexivity]|].
    intros r ? [-> Hr]. apply rel_ret. cbn [fst snd]. split; [split; [reflexivity | exact Hr] | exact H3].
  Qed.

  Lemma t_zero_rows d n :
    uvel (repeat (repeat (@n0 (@num_arith ENum)) d) n) = repeat (repeat (@n0 (@num_arith ENum)) d) n.
  Proof.
    unfold uvel. induction n as [|n IH]; [reflexivity|]. cbn [repeat map].
    f_equal; [apply u_zeros, HU | exact IH].
  Qed.
  Lemma t_radius d X gb : rigid U -> swarm_radius d (upop U X) (amap U gb) = swarm_radius d X gb.
  Proof.
    intro HR. unfold swarm_radius, upop. rewrite map_map. f_equal. f_equal. apply map_ext. intro x.
    rewrite u_rigid_norm by assumption. reflexivity.
  Qed.
  Lemma t_upd_many {A B} (f : A -> B) idx : forall rows l,
    upd_many idx (map f rows) (map f l) = map f (upd_many idx rows l).
  Proof.
    induction idx as [|i idx IH]; intros [|r rows] l; try reflexivity. cbn [map upd_many].
    rewrite <- u_upd. apply IH.
  Qed.
  Lemma t_restart P g it s : rigid U ->
    rel' (restart P g it s) (restart (uPSO P) g it (uPSS s))
      (fun a b => b = uPSS a /\ pss_rec a = pss_rec s).
  Proof.
    intro HR. unfold restart.
    cbn [uPSS pss_X pss_V pss_gbest pss_pbest pss_pbestfit pss_gfit pss_pfit pss_rec
         uPSO ps_d ps_delta ps_maxiter ps_p ps_lower ps_upper].
    rewrite t_radius by exact HR.
    destruct (nltb _ (ps_delta P)); [|apply rel_ret; split; reflexivity].
    eapply rel_bind; [apply rel_raise_if|]. intros _ _ _.
    eapply rel_bind; [apply rel_orelse|]. intros nw ? <-.
    destruct (0 <? nw)%Z; [|apply rel_ret; split; reflexivity]. cbv zeta.
    eapply rel_bind; [apply t_uniform_mat|]. intros rows ? ->.
    unfold upop at 2. unfold upop at 1. rewrite t_upd_many.
    eapply rel_bind; [apply t_pso_set_alias|]. intros _ _ _. apply rel_ret.
    split; [|reflexivity]. unfold uPSS, uvel, upop.
    cbn [pss_X pss_V pss_gbest pss_pbest pss_pbestfit pss_gfit pss_pfit pss_rec].
    f_equal.
    - apply t_upd_many.
    - rewrite <- t_upd_many. f_equal. symmetry. apply t_zero_rows.
    - rewrite <- t_upd_many, map_map. f_equal. apply map_ext. intro i.
      rewrite t_upd_many. apply u_nth.
  Qed.

  Lemma t_cpso (a : Args) sync w c1 c2 gamma : raw = false -> Pairs (a_bounds a) ->
    a_backend a <> Some "mpi"%string -> truthy gamma = None \/ rigid U ->
    rel' (cpso a sync w c1 c2 gamma) (cpso (uargs U a) sync w c1 c2 gamma) (SameResult U raw same).
  Proof.
    intros Hraw HP Hb Hg. unfold cpso. cbn [uargs a_workers a_backend a_bounds a_constraints a_popsize a_x0
      a_x0_array a_return_all a_verbosity a_maxiter a_xtol a_ftol]. rewrite t_nd_len.
    eapply rel_bind; [apply t_eval_kind, Hb|]. intros m ? [<- Hm].
    eapply rel_bind; [apply t_unpack, HP|]. intros [lo up] [lo' up'] (H1 & H2 & _). cbn [fst snd] in H1, H2. subst lo' up'.
    eapply rel_bind; [apply rel_orelse|]. intros con ? <-.
    replace (match option_map (ux0 U) (a_x0 a) with Some _ => negb (a_x0_array a) | None => false end)
      with (match a_x0 a with Some _ => negb (a_x0_array a) | None => false end) by (destruct (a_x0 a); reflexivity).
    replace (match option_map (ux0 U) (a_x0 a) with Some _ => a_x0_array a | None => false end)
      with (match a_x0 a with Some _ => a_x0_array a | None => false end) by (destruct (a_x0 a); reflexivity).
    eapply rel_bind; [apply t_pop0|]. intros X ? ->.
    eapply rel_bind; [apply rel_raise_if|]. intros _ _ _. cbv zeta.
    eapply rel_bind; [apply t_eval_pop, Hm|]. intros [X1 pf] [X2 pf'] [H1 H2]. cbn [fst snd] in H1, H2. subst X2 pf'.
    eapply rel_bind; [apply rel_when, t_set_arg; reflexivity|]. intros _ _ _.
    eapply rel_bind; [apply rel_np_argmin|]. intros gb ? <-. cbv zeta.
    eapply rel_bind; [apply rel_rec_alloc|]. intros nout ? <-.
    assert (Hn : nth gb (upop U X1) [] = amap U (nth gb X1 [])) by apply u_nth. rewrite !Hn.
    eapply rel_bind; [apply t_rec_write0, Hraw|]. intros r ? [-> Hr].
    set (P := mkPSOParams w c1 c2 con (truthy gamma) (pso_delta (a_popsize a) (a_maxiter a))
      (Z.to_nat (a_popsize a)) (nd_len (a_bounds a)) lo up (a_maxiter a)
      (a_xtol a) (a_ftol a) m nout _ _).
    set (V0 := repeat (repeat n0 (nd_len (a_bounds a))) (Z.to_nat (a_popsize a))).
    set (s := mkPSOS X1 V0 X (nth gb X1 []) pf (nth gb pf n0) pf r).
    assert (Hs : mkPSOS (upop U X1) V0 (upop U X) (amap U (nth gb X1 [])) pf (nth gb pf n0) pf (uall U raw r)
                 = uPSS s).
    { unfold uPSS, s. cbn [pss_X pss_V pss_gbest pss_pbest pss_pbestfit pss_gfit pss_pfit pss_rec]. f_equal.
      symmetry. apply t_zero_rows. }
    rewrite Hs.
    change (mkPSOParams w c1 c2 con (truthy gamma) (pso_delta (a_popsize a) (a_maxiter a))
      (Z.to_nat (a_popsize a)) (nd_len (a_bounds a)) (amap U lo) (amap U up) (a_maxiter a)
      (a_xtol a) (a_ftol a) m nout _ _) with (uPSO P).
    eapply rel_bind.
    { apply (t_start (pso_drv P sync) (pso_drv (uPSO P) sync)). repeat split. }
    intros _ _ _. apply t_drive with (K := Kps).
    - intros it x y HK. apply t_pso_step; [exact Hm | exact HK].
    - intros it x y [-> HK]. cbn [pso_drv d_post]. unfold pso_post. cbn [uPSO ps_gamma P].
      destruct (truthy gamma) as [g|] eqn:Eg; [|apply rel_ret; split; [reflexivity | exact HK]].
      destruct Hg as [Hg|Hg]; [congruence|].
      eapply rel_conseq; [apply t_restart, Hg|]. intros u v [-> Hu]. split; [reflexivity|]. rewrite Hu. exact HK.
    - intros x y [-> _]. repeat split.
    - split; [reflexivity | exact Hr].
  Qed.

  (** ** na *)
  (** no variable is fixed by its bounds *)
  Definition Wide (lo up : vec) : Prop :=
    Forall (fun b => nltb (@n0 (@num_arith ENum)) (nsub (snd b) (fst b)) = true) (combine lo up).

  Lemma zero_lit : @n0 EArith = Fin 0.
  Proof. reflexivity. Qed.
  Lemma t_wide c (l u : @T (@num_arith ENum)) : (0 < fst c)%R ->
    nltb n0 (nsub (aff c u) (aff c l)) = nltb n0 (nsub u l).
  Proof.
    intro Hc. cbn [nltb nsub ENum EArith num_arith]. rewrite aff_sub by exact Hc.
    rewrite zero_lit. apply scl_pos, Hc.
  Qed.
  Lemma t_span_mask lo up : span_mask (amap U lo) (amap U up) = span_mask lo up.
  Proof.
    unfold span_mask. revert up. generalize HU. generalize U.
    induction lo as [|l lo IH]; intros W HW [|u up]; try reflexivity. cbn [amap map2].
    f_equal; [apply t_wide, HW | apply (IH _ (rest_pos _ HW))].
  Qed.
  Lemma t_normalize lo up x : Wide lo up ->
    normalize (amap U lo) (amap U up) (amap U x) = normalize lo up x.
  Proof.
    unfold normalize. revert up x. generalize HU. generalize U.
    induction lo as [|l lo IH]; intros W HW [|u up] [|a x] H; try reflexivity. cbn [amap map3].
    inversion H as [|? ? Hl Ht]; subst. cbn [fst snd] in Hl. rewrite t_wide by apply HW. rewrite Hl.
    f_equal; [|apply (IH _ (rest_pos _ HW)), Ht].
    cbn [ndiv nsub ENum EArith num_arith]. rewrite !aff_sub, scl_div by apply HW. reflexivity.
  Qed.
  Lemma t_unnormalize lo up x : Wide lo up ->
    unnormalize (amap U lo) (amap U up) x = amap U (unnormalize lo up x).
  Proof.
    unfold unnormalize. revert up x. generalize HU. generalize U.
    induction lo as [|l lo IH]; intros W HW [|u up] [|a x] H; try reflexivity. cbn [amap map3].
    inversion H as [|? ? Hl Ht]; subst. cbn [fst snd] in Hl. rewrite t_wide by apply HW. rewrite Hl.
    f_equal; [|apply (IH _ (rest_pos _ HW)), Ht].
    cbn [nadd nmul nsub ENum EArith num_arith]. rewrite aff_sub, scl_mul_r by apply HW. apply add_aff, HW.
  Qed.
  Lemma t_un_pop lo up X : Wide lo up ->
    map (unnormalize (amap U lo) (amap U up)) X = upop U (map (unnormalize lo up) X).
  Proof. intro H. unfold upop. rewrite map_map. apply map_ext. intro x. apply t_unnormalize, H. Qed.

  Definition uNAP (P : NAParams) : NAParams :=
    mkNAParams (na_p P) (na_d P) (na_nr P) (amap U (na_lower P)) (amap U (na_upper P)) (na_maxiter P)
      (na_xtol P) (na_ftol P) (na_mode P) (na_nout P).
  Definition uNAS (s : NAS) : NAS :=
    mkNAS (nas_X s) (nas_pbest s) (nas_gbest s) (nas_pbestfit s) (nas_gfit s) (nas_pfit s)
      (nas_Xall s) (nas_Xallfit s) (uall U raw (nas_rec s)).

  Lemma t_na_eval P X : na_mode P <> Mpi -> Wide (na_lower P) (na_upper P) ->
    rel' (na_eval P X) (na_eval (uNAP P) X) eq.
  Proof.
    intros Hm HW. unfold na_eval. cbn [uNAP na_mode na_lower na_upper]. rewrite t_un_pop by exact HW.
    eapply rel_bind; [apply t_eval_pop, Hm|]. intros [X1 f1] [X2 f2] [_ H]. cbn [snd] in H. subst f2.
    apply rel_ret. reflexivity.
  Qed.
  Lemma t_selection_eq it c xb x xf mi xt ft ev1 ev2 :
    rel' (ev1 c) (ev2 c) eq ->
    rel' (selection_sync it c xb x xf mi xt ft ev1) (selection_sync it c xb x xf mi xt ft ev2) eq.
  Proof.
    intros H. unfold selection_sync. eapply rel_bind; [apply H|]. intros [c1 f1] ? <-.
    eapply rel_bind; [apply rel_np_argmin|]. intros _ _ _. apply rel_ret. reflexivity.
  Qed.
  Lemma t_na_axis d mask xk Y acc j : rel' (na_axis d mask xk Y acc j) (na_axis d mask xk Y acc j) eq.
  Proof.
    unfold na_axis. destruct acc as [[x d1] d2]. destruct (negb _); [apply rel_ret; reflexivity|]. cbv zeta.
    eapply rel_bind; [apply t_uniform1|]. intros v ? <-.
    destruct (S j <? d)%nat; apply rel_ret; reflexivity.
  Qed.
  Lemma t_na_mutation P Xa fa : rel' (na_mutation P Xa fa) (na_mutation (uNAP P) Xa fa) eq.
  Proof.
    unfold na_mutation. cbn [uNAP na_lower na_upper na_nr na_p]. rewrite t_span_mask.
    apply rel_mapM. intros i _. unfold na_one. cbn [na_nr na_d]. cbv zeta.
    eapply rel_bind; [apply rel_foldM; intros; apply t_na_axis|]. intros acc ? <-. apply rel_ret. reflexivity.
  Qed.
  Definition Kna (s s' : NAS) : Prop := s' = uNAS s /\ Begun (nas_rec s).
  Lemma t_na_step P it s s' : na_mode P <> Mpi -> Wide (na_lower P) (na_upper P) -> Kna s s' ->
    rel' (na_step P it s) (na_step (uNAP P) it s')
      (fun p q => Kna (fst p) (fst q) /\ Tol (snd p) (snd q)).
  Proof.
    intros Hm HW [-> HB]. unfold na_step. cbn [uNAS nas_Xall nas_Xallfit nas_gbest nas_pbest nas_pbestfit nas_rec].
    eapply rel_bind; [apply t_na_mutation|]. intros X ? <-.
    eapply rel_bind; [apply t_selection_eq, t_na_eval; assumption|]. intros sel ? <-. cbv zeta.
    cbn [uNAP na_lower na_upper na_nout na_maxiter]. rewrite t_un_pop, t_unnormalize by exact HW.
    eapply rel_bind; [apply t_rec_write; [exact HB | reflexivity]|].
    intros r ? [-> Hr]. apply rel_ret. cbn [fst snd].
    split; [split; [reflexivity | exact Hr] | apply Tol_refl].
  Qed.
  Lemma t_rec_raw nout mi pop pf best : raw = true ->
    rel' (rec_write nout mi 1 pop pf best
            (match nout with Some _ => Some ([], []) | None => None end))
         (rec_write nout mi 1 pop pf best
            (match nout with Some _ => Some ([], []) | None => None end))
         (fun a b => b = uall U raw a /\ Begun a).
  Proof.
    intros Hraw. destruct nout as [n|]; [|apply rel_ret; split; [reflexivity | right; exact I]].
    unfold rec_write, rec_put. destruct (mi <? 1)%Z; [intros s1 s2 HR; split; [exact HR | reflexivity]|].
    rewrite Hraw. destruct (0 <? n)%Z.
    - destruct (fit_rows _ _); [|intros s1 s2 HR; split; [exact HR | reflexivity]].
      destruct (fit_rows _ _); [|intros s1 s2 HR; split; [exact HR | reflexivity]].
      intros s1 s2 HR. split; [exact HR|]. cbn. split; [reflexivity | right; discriminate].
    - intros s1 s2 HR. split; [exact HR|]. cbn. split; [reflexivity | right; discriminate].
  Qed.
  (** every lower bound is below the upper bound *)
  Definition Proper (b : nd) : Prop :=
    match b with
    | D2 2 rows => Forall (fun r : vec => nltb (nth 0 r n0) (nth 1 r n0) = true) rows
    | _ => True
    end.
  Lemma lt_sub_pos l u : er_ltb l u = true -> er_ltb (Fin 0) (er_sub u l) = true.
  Proof.
    destruct l as [l| | |], u as [u| | |]; cbn; try reflexivity; try discriminate.
    unfold er_sub. cbn. unfold Rltb. destruct (Rlt_dec l u), (Rlt_dec 0 (u - l)); auto; try discriminate.
    intros _. exfalso. lra.
  Qed.
  Lemma Proper_Wide rows : Proper (D2 2 rows) ->
    Wide (map (fun r : vec => nth 0 r n0) rows) (map (fun r : vec => nth 1 r n0) rows).
  Proof.
    cbn [Proper]. unfold Wide. induction 1 as [|r rows Hr _ IH]; cbn [map combine]; constructor; [|exact IH].
    exact (lt_sub_pos _ _ Hr).
  Qed.

  Lemma t_na (a : Args) nrperc : raw = true -> Pairs (a_bounds a) -> Proper (a_bounds a) ->
    a_backend a <> Some "mpi"%string ->
    rel' (na a nrperc) (na (uargs U a) nrperc) (SameResult U raw same).
  Proof.
    intros Hraw HP HPr Hb. unfold na. cbn [uargs a_workers a_backend a_bounds a_constraints a_popsize a_x0
      a_x0_array a_return_all a_verbosity a_maxiter a_xtol a_ftol]. rewrite t_nd_len.
    eapply rel_bind; [apply t_eval_kind, Hb|]. intros m ? [<- Hm].
    eapply rel_bind; [apply t_unpack, HP|].
    intros [lo up] [lo' up'] (H1 & H2 & rows & Hr1 & Hr2). cbn [fst snd] in H1, H2. subst lo' up'.
    assert (HW : Wide lo up).
    { rewrite Hr1 in HPr. apply Proper_Wide in HPr. inversion Hr2. subst. exact HPr. }
    cbv zeta. eapply rel_bind; [apply rel_orelse|]. intros nr ? <-.
    eapply rel_bind; [apply t_pop0|]. intros X ? ->.
    assert (HX : map (normalize (amap U lo) (amap U up)) (upop U X) = map (normalize lo up) X).
    { unfold upop. rewrite map_map. apply map_ext. intro x. apply t_normalize, HW. }
    rewrite HX. set (X0 := map (normalize lo up) X).
    eapply rel_bind; [apply (t_na_eval (mkNAParams _ _ _ lo up _ _ _ m None)); assumption|]. intros [X1 pf] ? <-.
    eapply rel_bind; [apply rel_np_argmin|]. intros gb ? <-.
    eapply rel_bind; [apply rel_rec_alloc|]. intros nout ? <-.
    eapply rel_bind; [apply t_rec_raw, Hraw|]. intros r ? [-> Hr].
    set (P := mkNAParams (Z.to_nat (a_popsize a)) (nd_len (a_bounds a)) (Z.to_nat (Z.max 1 nr)) lo up
      (a_maxiter a) (a_xtol a) (a_ftol a) m nout).
    set (s := mkNAS X0 X0 (nth gb X0 []) pf (nth gb pf n0) pf X0 pf r).
    change (mkNAParams (Z.to_nat (a_popsize a)) (nd_len (a_bounds a)) (Z.to_nat (Z.max 1 nr)) (amap U lo)
      (amap U up) (a_maxiter a) (a_xtol a) (a_ftol a) m nout) with (uNAP P).
    change (mkNAS X0 X0 (nth gb X0 []) pf (nth gb pf n0) pf X0 pf (uall U raw r)) with (uNAS s).
    assert (HV : forall x, uview (na_drv P) (na_drv (uNAP P)) x (uNAS x)).
    { intro x. repeat split; cbn [na_drv d_pop d_x uNAP na_lower na_upper uNAS nas_X nas_gbest P];
        [apply t_un_pop, HW | apply t_unnormalize, HW]. }
    eapply rel_bind.
    { apply (t_start (na_drv P) (na_drv (uNAP P))). apply HV. }
    intros _ _ _. apply t_drive with (K := Kna).
    - intros it x y HK. apply t_na_step; [exact Hm | exact HW | exact HK].
    - intros it x y HK. apply rel_ret, HK.
    - intros x y [-> _]. apply HV.
    - split; [reflexivity | exact Hr].
  Qed.

  (** ** cmaes and vdcma *)
  Lemma t_xm lo up : cma_xm (amap U lo) (amap U up) = amap U (cma_xm lo up).
  Proof.
    unfold cma_xm. revert up. generalize HU. generalize U.
    induction lo as [|l lo IH]; intros W HW [|u up]; try reflexivity. cbn [amap map2].
    f_equal; [|apply (IH _ (rest_pos _ HW))].
    cbn [nadd nmul nlit ENum EArith num_arith]. apply aff_half; [apply HW | apply half].
  Qed.
  Lemma t_xstd lo up : cma_xstd (amap U lo) (amap U up) = smap U (cma_xstd lo up).
  Proof.
    unfold cma_xstd. revert up. generalize HU. generalize U.
    induction lo as [|l lo IH]; intros W HW [|u up]; try reflexivity. cbn [amap smap map2].
    f_equal; [|apply (IH _ (rest_pos _ HW))].
    cbn [nsub nmul nlit ENum EArith num_arith]. rewrite aff_sub by apply HW. apply scl_mul_r, HW.
  Qed.
  Lemma t_standardize xm xs x : standardize (amap U xm) (smap U xs) (amap U x) = standardize xm xs x.
  Proof. unfold standardize. rewrite u_vsub, u_vdiv by exact HU. reflexivity. Qed.
  Lemma t_unstandardize xm xs x :
    unstandardize (amap U xm) (smap U xs) x = amap U (unstandardize xm xs x).
  Proof. unfold unstandardize. rewrite u_vmul, u_vadd' by exact HU. reflexivity. Qed.

  Definition uCMP (P : CMAParams) : CMAParams :=
    mkCMAParams (cm_p P) (cm_d P) (cm_mu P) (cm_w P) (cm_mueff P) (amap U (cm_xm P)) (smap U (cm_xstd P))
      (cm_pen P) (cm_maxiter P) (cm_xtol P) (cm_ftol P) (cm_insigma P) (cm_ilim P) (cm_mode P) (cm_nout P).
  Lemma t_cma_un P x : cma_un (uCMP P) x = amap U (cma_un P x).
  Proof. apply t_unstandardize. Qed.
  Lemma t_cma_pop P X : map (cma_un (uCMP P)) X = upop U (map (cma_un P) X).
  Proof. unfold upop. rewrite map_map. apply map_ext. intro x. apply t_cma_un. Qed.
  Lemma t_cma_eval P X : cm_mode P <> Mpi -> rel' (cma_eval P X) (cma_eval (uCMP P) X) eq.
  Proof.
    intro Hm. unfold cma_eval. rewrite t_cma_pop. cbn [uCMP cm_mode].
    eapply rel_bind; [apply t_eval_pop, Hm|]. intros [X1 f1] [X2 f2] [_ H]. cbn [snd] in H. subst f2.
    apply rel_ret. reflexivity.
  Qed.
  Lemma t_penalize p d arx xm xo sg dC me it st f1 f2 :
    rel' (f1 (map (map clip1) arx)) (f2 (map (map clip1) arx)) eq ->
    rel' (penalize p d arx xm xo sg dC me it st f1) (penalize p d arx xm xo sg dC me it st f2) eq.
  Proof.
    intro H. unfold penalize. cbv zeta. eapply rel_bind; [exact H|]. intros fit ? <-.
    apply rel_bind with (Q := eq).
    - change (@e_percentile ENum E') with (@e_percentile ENum E).
      destruct (neqb _ _); [|destruct (negb _); apply rel_ret; reflexivity].
      destruct (filter _ _); [apply rel_raise | apply rel_ret; reflexivity].
    - intros [[de hi] va] ? <-. change (@e_median ENum E') with (@e_median ENum E).
      destruct (pen_ini st && _); apply rel_ret; reflexivity.
  Qed.
  Lemma t_fitness P arx xm xo sg dC it pen : cm_mode P <> Mpi ->
    rel' (cma_fitness P arx xm xo sg dC it pen) (cma_fitness (uCMP P) arx xm xo sg dC it pen) eq.
  Proof.
    intro Hm. unfold cma_fitness. cbn [uCMP cm_pen cm_p cm_d cm_mueff].
    destruct (cm_pen P); [apply t_penalize, t_cma_eval, Hm|].
    eapply rel_bind; [apply t_cma_eval, Hm|]. intros f ? <-. apply rel_ret. reflexivity.
  Qed.
  Lemma t_cma_record P it valid fit r r' : Begun r -> r' = uall U raw r ->
    rel' (cma_record P it valid fit r) (cma_record (uCMP P) it valid fit r')
      (fun a b => b = uall U raw a /\ Begun a).
  Proof.
    intros HB ->. unfold cma_record. cbv zeta. rewrite t_cma_pop, t_cma_un. cbn [uCMP cm_nout cm_maxiter].
    apply t_rec_write; [exact HB | reflexivity].
  Qed.
  Lemma t_hist_set P it v h : rel' (hist_set P it v h) (hist_set (uCMP P) it v h) eq.
  Proof.
    unfold hist_set. cbn [uCMP cm_maxiter]. destruct (_ <? _)%Z; [apply rel_raise | apply rel_ret; reflexivity].
  Qed.

  Definition uCMS (s : CMAS) : CMAS :=
    mkCMAS (cs_xmean s) (cs_xold s) (cs_pc s) (cs_ps s) (cs_B s) (cs_D s) (cs_C s) (cs_inv s)
      (cs_sigma s) (cs_pen s) (cs_nfev s) (cs_eigeneval s) (cs_hist s) (cs_valid s) (cs_fit s)
      (cs_index s) (uall U raw (cs_rec s)).
  Definition Kcm (s s' : CMAS) : Prop := s' = uCMS s /\ Begun (cs_rec s).
  Lemma t_cma_sample P s : rel' (cma_sample P s) (cma_sample (uCMP P) (uCMS s)) eq.
  Proof.
    unfold cma_sample. cbn [uCMP uCMS cm_p cm_d cs_xmean cs_sigma cs_B cs_D]. apply rel_replicateM.
    eapply rel_bind; [apply t_randn_vec|]. intros z ? <-. apply rel_ret. reflexivity.
  Qed.
  Lemma t_cma_step P it s s' : cm_mode P <> Mpi -> Kcm s s' ->
    rel' (cma_step P it s) (cma_step (uCMP P) it s')
      (fun p q => Kcm (fst p) (fst q) /\ Tol (snd p) (snd q)).
  Proof.
    intros Hm [-> HB]. unfold cma_step. cbv zeta.
    eapply rel_bind; [apply t_cma_sample|]. intros arx ? <-.
    cbn [uCMS cs_xmean cs_xold cs_pc cs_ps cs_B cs_D cs_C cs_inv cs_sigma cs_pen cs_nfev cs_eigeneval
         cs_hist cs_valid cs_fit cs_index cs_rec].
    eapply rel_bind; [apply t_fitness, Hm|]. intros [[fit valid] pen] ? <-.
    eapply rel_bind; [apply t_cma_record; [exact HB | reflexivity]|]. intros r ? [-> Hr].
    change (@e_argsort ENum E') with (@e_argsort ENum E).
    eapply rel_bind; [apply t_hist_set|]. intros hist ? <-.
    apply rel_bind with (Q := eq).
    - change (@e_eigh ENum E') with (@e_eigh ENum E).
      cbn [uCMP cm_p cm_d cm_mu cm_w cm_mueff].
      match goal with |- context [nltb ?a ?b] =>
        match b with nZ _ => destruct (nltb a b) end end; [|apply rel_ret; reflexivity].
      eapply rel_bind; [apply rel_orelse|]. intros [D B] ? <-. apply rel_ret. reflexivity.
    - intros [[[[B D] C] inv] ee] ? <-. apply rel_ret. cbn [fst snd].
      split; [split; [reflexivity | exact Hr] | apply Tol_refl].
  Qed.

  Definition uVDS (s : VDS) : VDS :=
    mkVDS (vs_xmean s) (vs_xold s) (vs_dx s) (vs_ps s) (vs_dvec s) (vs_vvec s) (vs_nv2 s) (vs_nv s)
      (vs_vn s) (vs_vnn s) (vs_pc s) (vs_inj s) (vs_sigma s) (vs_pen s) (vs_nfev s) (vs_hist s)
      (vs_valid s) (vs_fit s) (vs_index s) (uall U raw (vs_rec s)).
  Definition Kvd (s s' : VDS) : Prop := s' = uVDS s /\ Begun (vs_rec s).
  Lemma t_vd_sample P s : rel' (vd_sample P s) (vd_sample (uCMP P) (uVDS s)) eq.
  Proof.
    unfold vd_sample. cbn [uCMP uVDS cm_p cm_d vs_nv2 vs_dvec vs_vn vs_inj vs_dx vs_vvec].
    eapply rel_bind; [apply rel_replicateM, t_randn_vec|]. intros arz ? <-. cbv zeta.
    destruct (vs_inj s); [|apply rel_ret; reflexivity].
    eapply rel_bind; [apply t_randn_vec|]. intros z ? <-.
    eapply rel_bind; [apply rel_raise_if|]. intros _ _ _. apply rel_ret. reflexivity.
  Qed.
  Lemma t_vd_step P it s s' : cm_mode P <> Mpi -> Kvd s s' ->
    rel' (vd_step P it s) (vd_step (uCMP P) it s')
      (fun p q => Kvd (fst p) (fst q) /\ Tol (snd p) (snd q)).
  Proof.
    intros Hm [-> HB]. unfold vd_step. cbv zeta.
    eapply rel_bind; [apply t_vd_sample|]. intros ary ? <-.
    cbn [uVDS vs_xmean vs_xold vs_dx vs_ps vs_dvec vs_vvec vs_nv2 vs_nv vs_vn vs_vnn vs_pc vs_inj vs_sigma
         vs_pen vs_nfev vs_hist vs_valid vs_fit vs_index vs_rec].
    cbn [uCMP cm_d]. fold (uCMP P).
    eapply rel_bind; [apply t_fitness, Hm|]. intros [[fit valid] pen] ? <-.
    eapply rel_bind; [apply t_cma_record; [exact HB | reflexivity]|]. intros r ? [-> Hr].
    change (@e_argsort ENum E') with (@e_argsort ENum E).
    eapply rel_bind; [apply t_hist_set|]. intros hist ? <-.
    cbn [uCMP cm_p cm_d cm_mu cm_w cm_mueff].
    assert (Hs : vd_sigma (uCMP P) (uVDS s) (e_argsort fit) = vd_sigma P s (e_argsort fit)) by reflexivity.
    rewrite Hs. destruct (vd_sigma P s (e_argsort fit)) as [[ps sg] cond].
    destruct (vd_update _ _ _ _ _ _ _ _ _ _ _ _ _ _ _) as [vv dv].
    apply rel_ret. cbn [fst snd]. split; [split; [reflexivity | exact Hr] | apply Tol_refl].
  Qed.

  Definition uCMA (A : CMAArgs) : CMAArgs := mkCMAArgs (uargs U (caa A)) (caa_sigma A) (caa_muperc A).
  Lemma t_cma_check A : rel' (cma_check A) (cma_check (uCMA A)) eq.
  Proof.
    unfold cma_check. cbn [uCMA caa caa_sigma caa_muperc]. cbv zeta.
    cbn [uargs a_callable a_bounds a_x0]. fold (uargs U (caa A)). rewrite t_ndim, t_nd_len.
    eapply rel_bind; [apply rel_raise_if|]. intros _ _ _.
    eapply rel_bind; [apply rel_raise_if|]. intros _ _ _.
    destruct (a_x0 (caa A)) as [x|]; cbn [option_map]; rewrite ?t_ndim0, ?t_len0;
      (eapply rel_bind; [apply rel_raise_if|]); intros _ _ _;
      (eapply rel_bind; [apply rel_raise_if|]); intros _ _ _;
      (eapply rel_bind; [apply rel_raise_if|]); intros _ _ _; apply t_seed_and_cb.
  Qed.
  Lemma t_cons_check c : rel' (cma_cons_check c) (cma_cons_check c) eq.
  Proof.
    destruct c as [c|]; cbn; [|apply rel_ret; reflexivity].
    destruct (String.eqb _ _); [apply rel_ret; reflexivity | apply rel_raise].
  Qed.
  Lemma t_cma_setup A : Pairs (a_bounds (caa A)) -> a_backend (caa A) <> Some "mpi"%string ->
    rel' (cma_setup A) (cma_setup (uCMA A))
      (fun p q => q = (fst p, uCMP (snd p)) /\ cm_mode (snd p) <> Mpi).
  Proof.
    intros HP Hb. unfold cma_setup. cbn [uCMA caa caa_sigma caa_muperc]. cbv zeta.
    cbn [uargs a_workers a_backend a_bounds a_constraints a_popsize a_x0 a_maxiter a_xtol a_ftol].
    rewrite t_nd_len.
    eapply rel_bind; [apply t_eval_kind, Hb|]. intros m ? [<- Hm].
    eapply rel_bind; [apply t_unpack, HP|]. intros [lo up] [lo' up'] (H1 & H2 & _). cbn [fst snd] in H1, H2. subst lo' up'.
    rewrite t_xm, t_xstd.
    eapply rel_bind; [apply t_cons_check|]. intros pen ? <-.
    apply rel_bind with (Q := eq).
    { destruct (a_x0 (caa A)) as [x|]; cbn [option_map].
      - rewrite t_vec0, t_standardize. apply rel_ret. reflexivity.
      - apply rel_replicateM, t_uniform. }
    intros xmean ? <-.
    eapply rel_bind; [apply rel_orelse|]. intros mu ? <-. apply rel_ret. split; [reflexivity | exact Hm].
  Qed.
  Lemma t_cma_alloc a : rel' (cma_alloc a) (cma_alloc (uargs U a)) eq.
  Proof.
    unfold cma_alloc. cbn [uargs a_bounds a_return_all a_verbosity a_popsize a_maxiter]. rewrite t_nd_len. cbv zeta.
    eapply rel_bind; [apply rel_rec_alloc|]. intros nout ? <-.
    eapply rel_bind; [apply rel_raise_if|]. intros _ _ _.
    eapply rel_bind; [apply rel_raise_if|]. intros _ _ _.
    eapply rel_bind; [apply rel_raise_if|]. intros _ _ _.
    eapply rel_bind; [apply rel_orelse|]. intros il ? <-. apply rel_ret. reflexivity.
  Qed.

  Lemma begun0 (nout : option Z) : raw = false ->
    Begun (match nout with Some _ => Some ([], []) | None => None end).
  Proof. intro H. left. exact H. Qed.
  Lemma all0 (nout : option Z) :
    uall U raw (match nout with Some _ => Some ([], []) | None => None end) =
    match nout with Some _ => Some ([], []) | None => None end.
  Proof. destruct nout; [|reflexivity]. cbn. destruct raw; reflexivity. Qed.

  Lemma t_cmaes A : raw = false -> Pairs (a_bounds (caa A)) -> a_backend (caa A) <> Some "mpi"%string ->
    rel' (cmaes A) (cmaes (uCMA A)) (SameResult U raw same).
  Proof.
    intros Hraw HP Hb. unfold cmaes. cbv zeta.
    eapply rel_bind; [apply t_cma_setup; assumption|]. intros [xmean P0] ? [-> Hm]. cbn [fst snd] in *.
    cbn [uCMA caa caa_sigma].
    eapply rel_bind; [apply t_cma_alloc|]. intros [nout ilim] ? <-.
    cbn [uargs a_callback a_maxiter has_cb]. change (@e_empty ENum E') with (@e_empty ENum E).
    match goal with |- @rel _ _ _ _ _ _ (drive (cma_drv ?p) _ _ _ ?x) (drive (cma_drv ?q) _ _ _ ?y) _ =>
      assert (Hp : q = uCMP p) by reflexivity; assert (Hs : y = uCMS x);
        [unfold uCMS; cbn [cs_rec]; rewrite all0; reflexivity|]; rewrite Hp, Hs; clear Hp Hs;
      assert (Hb0 : Begun (cs_rec x)) by (apply begun0, Hraw);
      assert (Hm0 : cm_mode p <> Mpi) by exact Hm; set (P := p) in *; set (s := x) in *
    end.
    change (has_cb (uargs U (caa A))) with (has_cb (caa A)).
    apply t_drive with (K := Kcm).
    - intros it x y HK. apply t_cma_step; assumption.
    - intros it x y HK. apply rel_ret, HK.
    - intros x y [-> _]. repeat split; cbn [cma_drv d_pop d_x]; [apply t_cma_pop | apply t_cma_un].
    - split; [reflexivity | exact Hb0].
  Qed.
  Lemma t_vdcma A : raw = false -> Pairs (a_bounds (caa A)) -> a_backend (caa A) <> Some "mpi"%string ->
    rel' (vdcma A) (vdcma (uCMA A)) (SameResult U raw same).
  Proof.
    intros Hraw HP Hb. unfold vdcma. cbv zeta.
    eapply rel_bind; [apply t_cma_setup; assumption|]. intros [xmean P0] ? [-> Hm]. cbn [fst snd] in *.
    cbn [uCMA caa caa_sigma]. cbn [uCMP cm_d]. fold (uCMP P0).
    eapply rel_bind; [apply t_randn_vec|]. intros z ? <-.
    eapply rel_bind; [apply t_cma_alloc|]. intros [nout ilim] ? <-.
    cbn [uargs a_callback a_maxiter has_cb]. change (@e_empty ENum E') with (@e_empty ENum E).
    match goal with |- @rel _ _ _ _ _ _ (drive (vd_drv ?p) _ _ _ ?x) (drive (vd_drv ?q) _ _ _ ?y) _ =>
      assert (Hp : q = uCMP p) by reflexivity; assert (Hs : y = uVDS x);
        [unfold uVDS; cbn [vs_rec]; rewrite all0; reflexivity|]; rewrite Hp; clear Hp;
      assert (Hb0 : Begun (vs_rec x)) by (apply begun0, Hraw);
      assert (Hm0 : cm_mode p <> Mpi) by exact Hm; set (P := p) in *
    end.
    change (has_cb (uargs U (caa A))) with (has_cb (caa A)).
    apply t_drive with (K := Kvd).
    - intros it x y HK. apply t_vd_step; assumption.
    - intros it x y HK. apply rel_ret, HK.
    - intros x y [-> _]. repeat split; cbn [vd_drv d_pop d_x]; [apply t_cma_pop | apply t_cma_un].
    - split; [exact Hs | exact Hb0].
  Qed.
End Run.
