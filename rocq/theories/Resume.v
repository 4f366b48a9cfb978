(** C80: a deferred run of de is resumed from its population.  With an objective and a callback
    without memory, a call whose [x0] is the population that the last callback of a run ended by
    maxiter has seen, made in the random state which that run left, continues it: it does what
    one long run does from there on. *)
From Coq Require Import Permutation.
From Verif Require Import Base Num Env Common DE Rel Hoare EvalRules.

(** ** Specification *)
Section Spec.
  Context {N : Num} {E : Env N}.

  (** the value depends on the point only, and nothing else changes *)
  Definition Memoryless (g : vec -> T) : Prop :=
    (forall x w, e_fun x w = (inl (g x), w)) /\ (forall X st w, e_cb X st w = (None, w)).

  (** the call with another maxiter *)
  Definition lasting (m : Z) (A : DEArgs) : DEArgs :=
    let a := dea A in
    mkDEArgs (mkArgs (a_callable a) (a_bounds a) (a_x0 a) (a_x0_array a) m (a_popsize a) (a_seed a)
                     (a_xtol a) (a_ftol a) (a_constraints a) (a_workers a) (a_backend a)
                     (a_return_all a) (a_verbosity a) (a_callback a))
             (dea_mutation A) (dea_recombination A) (dea_strategy A) (dea_updating A).
  (** the call that takes up the population [X] as an array, without seed *)
  Definition resuming (X : matrix) (A : DEArgs) : DEArgs :=
    let a := dea A in
    mkDEArgs (mkArgs (a_callable a) (a_bounds a) (Some (D2 (nd_len (a_bounds a)) X)) true
                     (a_maxiter a) (a_popsize a) None (a_xtol a) (a_ftol a) (a_constraints a)
                     (a_workers a) (a_backend a) (a_return_all a) (a_verbosity a) (a_callback a))
             (dea_mutation A) (dea_recombination A) (dea_strategy A) (dea_updating A).

  (** the same call of user code, [k] generations of [p] evaluations later *)
  Definition Later (k p : Z) (e e' : event) : Prop :=
    match e, e' with
    | EEval x r, EEval x' r' => x = x' /\ r = r'
    | ECb X c r, ECb X' c' r' =>
        X = X' /\ r = r' /\ cb_x c = cb_x c' /\ cb_fun c = cb_fun c' /\
        cb_nit c = (cb_nit c' + k)%Z /\ cb_nfev c = (cb_nfev c' + k * p)%Z /\ cb_all c = cb_all c'
    | _, _ => False
    end.
  Definition LaterRes (k p : Z) (r r' : OptRes) : Prop :=
    r_x r = r_x r' /\ r_fun r = r_fun r' /\ r_status r = r_status r' /\ r_success r = r_success r' /\
    r_message r = r_message r' /\ r_nit r = (r_nit r' + k)%Z /\
    r_nfev r = (r_nfev r' + k * p)%Z /\ r_all r = r_all r'.
End Spec.

Section Resume.
  Context {N : Num} {E : Env N}.
  Variable g : vec -> T.
  Hypothesis HM : Memoryless g.
  Hypothesis HS : SchedOK.

  (** ** Programs from related states *)
  Definition Closed (R : St -> St -> Prop) : Prop :=
    forall s1 s2, R s1 s2 ->
      rs s1 = rs s2 /\
      (forall w, R (mkSt w (tr s1) (argbuf s1)) (mkSt w (tr s2) (argbuf s2))) /\
      (forall w x y, R (mkSt w (tr s1 ++ [EEval x y]) (argbuf s1))
                       (mkSt w (tr s2 ++ [EEval x y]) (argbuf s2))).

  Section Draws.
    Variable R : St -> St -> Prop.
    Hypothesis HR : Closed R.
    Notation relR := (@rel N E E R).
    Lemma s_draw {A} (f : RNG -> A * RNG) : relR (draw f) (draw f) eq.
    Proof.
      intros s1 s2 H. destruct (HR _ _ H) as (H1 & H2 & H3). unfold draw.
      rewrite <- H1. destruct (f (fst (rs s1))) as [a r]. cbn. split; [apply H2|reflexivity].
    Qed.
    Lemma s_rand : relR rand rand eq. Proof. exact (s_draw e_rand). Qed.
    Lemma s_perm n : relR (perm n) (perm n) eq. Proof. exact (s_draw (e_perm n)). Qed.
    Lemma s_randint n : relR (randint n) (randint n) eq. Proof. exact (s_draw (e_randint n)). Qed.
    Lemma s_uniform lo hi : relR (uniform lo hi) (uniform lo hi) eq.
    Proof. eapply rel_bind; [apply s_rand|]. intros x y <-. apply rel_ret. reflexivity. Qed.
    Lemma s_urange l u : relR (urange l u) (urange l u) eq.
    Proof. unfold urange. destruct (frange _ _); [apply rel_ret; reflexivity|apply rel_raise]. Qed.
    Lemma s_uniform_vec l u : relR (uniform_vec l u) (uniform_vec l u) eq.
    Proof.
      eapply rel_bind; [apply s_urange|]. intros ? ? _. apply rel_mapM. intros. apply s_uniform.
    Qed.
    Lemma s_rand_mat p d : relR (rand_mat p d) (rand_mat p d) eq.
    Proof. apply rel_replicateM, rel_replicateM, s_rand. Qed.
    Lemma s_call_fun x : relR (call_fun x) (call_fun x) eq.
    Proof.
      intros s1 s2 H. destruct (HR _ _ H) as (H1 & H2 & H3). unfold call_fun.
      destruct HM as [HF _]. rewrite <- H1, HF. cbn. split; [apply H3|reflexivity].
    Qed.
    Lemma s_eval_pop m X : m <> Mpi -> relR (eval_pop m X) (eval_pop m X) eq.
    Proof.
      intro Hm. destruct m; [| |congruence]; cbn [eval_pop].
      - eapply rel_bind; [apply rel_mapM; intros; apply s_call_fun|]. intros f ? <-.
        apply rel_ret. reflexivity.
      - eapply rel_bind; [|intros f ? <-; apply rel_ret; reflexivity].
        unfold eval_joblib. apply rel_bind with (Q := eq).
        + intros s1 s2 H. destruct (HR _ _ H) as (H1 & _). unfold get_sched. cbn. rewrite H1.
          split; [exact H|reflexivity].
        + intros o ? <-. apply rel_foldM. intros f i.
          eapply rel_bind; [apply s_call_fun|]. intros y ? <-. apply rel_ret. reflexivity.
    Qed.
    Lemma s_de_cons c lo up u : relR (de_cons c lo up u) (de_cons c lo up u) eq.
    Proof.
      destruct c; [apply rel_ret; reflexivity|].
      eapply rel_bind; [apply s_uniform_vec|]. intros r ? <-. apply rel_ret. reflexivity.
    Qed.
    Lemma s_np_randint n : relR (np_randint n) (np_randint n) eq.
    Proof. destruct n; [apply rel_raise|apply s_randint]. Qed.
    Lemma s_delete_shuffle p i : relR (delete_shuffle p i) (delete_shuffle p i) eq.
    Proof. eapply rel_bind; [apply s_perm|]. intros x ? <-. apply rel_ret. reflexivity. Qed.
  End Draws.

  (** ** One generation *)
  Variables (F CR : T) (strat : Strat) (con : DECons) (p d : nat) (lo up : vec) (xtol ftol : T)
            (mode : Mode).
  Hypothesis Hmode : mode <> Mpi.
  Definition PP (m : Z) (al : bool) : DEParams :=
    mkDEParams F CR strat con p d lo up m xtol ftol mode None al false.
  Definition fin (m it : Z) (c : option Z) : option Z :=
    match c with Some c => Some c | None => if (m <=? it)%Z then Some (-1)%Z else None end.

  Lemma sync_fin xb xi fi : exists c, c <> Some (-1)%Z /\
    forall (it m : Z), sync_status it m xtol ftol xb xi fi = fin m it c.
  Proof.
    unfold sync_status. destruct (nleb (vnorm (vsub xb xi)) xtol), (nleb fi ftol); cbn.
    1: exists (Some 0%Z). 2: exists None. 3: exists (Some 1%Z). 4: exists None.
    all: split; [discriminate|reflexivity].
  Qed.

  Definition alike (s s' : DES) : Prop :=
    des_X s = des_X s' /\ des_gbest s = des_gbest s' /\ des_pbestfit s = des_pbestfit s' /\
    des_gfit s = des_gfit s' /\ des_rec s = None /\ des_rec s' = None.

  Lemma s_step (R : St -> St -> Prop) m1 m2 it1 it2 (a1 a2 : bool) s s' : Closed R ->
    (forall X, rel R (when a1 (set_arg X)) (when a2 (set_arg X)) eq) -> alike s s' ->
    rel R (de_step (PP m1 a1) true it1 s) (de_step (PP m2 a2) true it2 s')
      (fun u v => fst u = fst v /\ des_rec (fst u) = None /\
                  exists c, c <> Some (-1)%Z /\ snd u = fin m1 it1 c /\ snd v = fin m2 it2 c).
  Proof.
    intros HR HA (K1 & K2 & K3 & K4 & K5 & K6). unfold de_step.
    eapply rel_bind; [apply s_rand_mat, HR|]. intros r1 ? <-. cbn [de_list PP].
    eapply rel_bind; [apply rel_raise_if|]. intros _ _ _.
    apply rel_bind with (Q := fun u v => fst u = fst v /\ des_rec (fst u) = None /\
       exists c, c <> Some (-1)%Z /\ snd u = fin m1 it1 c /\ snd v = fin m2 it2 c).
    - unfold de_sync. rewrite <- K1, <- K2, <- K3, K5, K6. apply rel_bind with (Q := eq).
      + unfold de_cands. cbn [de_p de_d de_F de_CR de_con de_lower de_upper de_strat PP].
        eapply rel_bind; [apply rel_mapM; intros; apply s_delete_shuffle, HR|]. intros x ? <-.
        eapply rel_bind; [apply rel_mapM; intros; apply rel_orelse|]. intros V ? <-.
        eapply rel_bind; [apply rel_replicateM, s_np_randint, HR|]. intros ir ? <-.
        apply rel_mapM. intros. apply s_de_cons, HR.
      + intros U ? <-. cbn [de_maxiter de_xtol de_ftol de_mode PP].
        apply rel_bind with (Q := fun u v => exists cf,
          u = sync_sel it1 U cf (des_gbest s) (des_X s) (des_pbestfit s) m1 xtol ftol /\
          v = sync_sel it2 U cf (des_gbest s) (des_X s) (des_pbestfit s) m2 xtol ftol).
        * unfold selection_sync.
          apply rel_bind with (Q := fun u v => u = v /\ fst u = U).
          { pose proof (s_eval_pop R HR mode U Hmode) as He. intros s1 s2 H.
            destruct (He s1 s2 H) as [H1 H2]. split; [exact H1|].
            assert (HX : forall st, match fst (eval_pop mode U st) with inl u => fst u = U | _ => True end).
            { intro st. destruct mode; [| |congruence]; cbn [eval_pop]; unfold bind.
              - destruct (eval_serial U st) as [[f|e] st']; exact I || reflexivity.
              - destruct (eval_joblib U st) as [[f|e] st']; exact I || reflexivity. }
            specialize (HX s1). destruct (fst (eval_pop mode U s1)), (fst (eval_pop mode U s2)); auto. }
          intros [U' cf] ? [<- HU]. cbn in HU. subst U'.
          eapply rel_bind; [apply rel_np_argmin|]. intros _ _ _. apply rel_ret. exists cf. auto.
        * intros u v (cf & -> & ->). unfold set_alias. cbn [de_alias PP].
          eapply rel_bind; [apply HA|]. intros _ _ _. apply rel_ret. cbn.
          split; [reflexivity|]. split; [reflexivity|].
          destruct (sync_fin (des_gbest s)
                      (nth (argmin (sel_fun cf (des_pbestfit s))) (sel_x U cf (des_X s) (des_pbestfit s)) [])
                      (nth (argmin (sel_fun cf (des_pbestfit s))) (sel_fun cf (des_pbestfit s)) n0))
            as (c & Hc & H). exists c. auto.
    - intros [u c] [v c'] (Huv & Hr & H). cbn [fst snd] in *. subst v. cbn [de_nout PP rec_write].
      eapply rel_bind; [apply (rel_ret R None None (fun x y => x = None /\ y = None)); auto|].
      intros x y [-> ->]. apply rel_ret. cbn. auto.
  Qed.

  (** ** Evaluating *)
  Definition ev (x : vec) : event := EEval x (inl (g x)).
  Lemma call_pure x s : call_fun x s = (inl (g x), mkSt (rs s) (tr s ++ [ev x]) (argbuf s)).
  Proof. unfold call_fun. destruct HM as [-> _]. reflexivity. Qed.
  Lemma eval_pure X s : exists l, Permutation l X /\
    eval_pop mode X s = (inl (X, map g X), mkSt (rs s) (tr s ++ map ev l) (argbuf s)).
  Proof.
    destruct mode; [| |congruence]; cbn [eval_pop].
    - exists X. split; [reflexivity|]. unfold bind, eval_serial.
      assert (H : mapM call_fun X s = (inl (map g X), mkSt (rs s) (tr s ++ map ev X) (argbuf s))).
      { revert s. induction X as [|x X IH]; intro s; cbn [mapM map].
        - destruct s. cbn. rewrite app_nil_r. reflexivity.
        - unfold bind. rewrite call_pure, IH. cbn. rewrite <- app_assoc. reflexivity. }
      rewrite H. reflexivity.
    - set (o := e_sched (length X) (rs s)).
      exists (map (fun i => nth i X []) o). split; [apply Permutation_map_nth, HS|].
      assert (H : exists f, eval_joblib X s =
        (inl f, mkSt (rs s) (tr s ++ map ev (map (fun i => nth i X []) o)) (argbuf s))).
      { unfold eval_joblib. unfold bind at 1. unfold get_sched at 1. fold o.
        generalize (repeat n0 (length X)). generalize o.
        clear o. intro o. revert s. induction o as [|i o IH]; intros s f0; cbn [foldM map].
        - exists f0. destruct s. cbn. rewrite app_nil_r. reflexivity.
        - destruct (IH (mkSt (rs s) (tr s ++ [ev (nth i X [])]) (argbuf s)) (upd i (g (nth i X [])) f0))
            as [f Hf]. exists f. unfold bind at 1 2. rewrite call_pure. unfold ret at 1.
          rewrite Hf. cbn. rewrite <- app_assoc. reflexivity. }
      destruct H as [f Hf]. unfold bind. rewrite Hf. cbn.
      assert (H : wp (eval_joblib X) (fun f s' => exists l, length f = length X /\
                tr s' = tr s ++ map ok l /\ Permutation l (combine X f)) (fun _ _ => True) s).
      { apply wp_eval_joblib; [exact HS|intros f' s' l H1 H2 H3 _; exists l; auto|auto]. }
      unfold wp in H. rewrite Hf in H. destruct H as (l & Hl & Ht & Hp). cbn in Ht.
      apply app_inv_head in Ht.
      assert (Hg : forall x y, In (x, y) (combine X f) -> y = g x).
      { intros x y Hin. apply (Permutation_in _ (Permutation_sym Hp)) in Hin.
        apply (in_map ok) in Hin. rewrite <- Ht in Hin. apply in_map_iff in Hin.
        destruct Hin as (z & Hz & _). unfold ev, ok in Hz. cbn in Hz. injection Hz as -> <-. reflexivity. }
      enough (Hfg : f = map g X) by (rewrite Hfg; reflexivity).
      clear - Hl Hg. revert f Hl Hg. induction X as [|x X IH]; intros [|y f] Hl Hg; cbn in *;
        try discriminate; [reflexivity|].
      rewrite (Hg x y) by auto. f_equal. apply IH; [congruence|]. intros; apply Hg; auto.
  Qed.

  (** ** What the population determines *)
  Definition Known (s : DES) : Prop :=
    length (des_X s) = p /\ des_pbestfit s = map g (des_X s) /\
    des_gbest s = nth (argmin (map g (des_X s))) (des_X s) [] /\
    des_gfit s = nth (argmin (map g (des_X s))) (map g (des_X s)) n0 /\ des_rec s = None.

  Lemma mapM_len {A B} (f : A -> M B) l : forall s r s', mapM f l s = (inl r, s') -> length r = length l.
  Proof.
    induction l as [|a l IH]; intros s r s'; cbn; [intro H; inversion H; reflexivity|].
    unfold bind. destruct (f a s) as [[b|e] s1]; [|discriminate].
    destruct (mapM f l s1) as [[bs|e] s2] eqn:E1; [|discriminate].
    intro H. inversion H. cbn. f_equal. eapply IH, E1.
  Qed.
  Lemma replicateM_len {B} n (m : M B) : forall s r s', replicateM n m s = (inl r, s') -> length r = n.
  Proof.
    induction n as [|n IH]; intros s r s'; cbn; [intro H; inversion H; reflexivity|].
    unfold bind. destruct (m s) as [[b|e] s1]; [|discriminate].
    destruct (replicateM n m s1) as [[bs|e] s2] eqn:E1; [|discriminate].
    intro H. inversion H. cbn. f_equal. eapply IH, E1.
  Qed.
  Lemma sel_values U X : sel_fun (map g U) (map g X) = map g (sel_x U (map g U) X (map g X)).
  Proof.
    unfold sel_fun, sel_x. revert X. induction U as [|u U IH]; intros [|x X]; cbn; try reflexivity.
    rewrite IH. f_equal. destruct (nltb (g u) (g x)); reflexivity.
  Qed.

  Lemma step_known m al it s st s' c st' : Known s ->
    de_step (PP m al) true it s st = (inl (s', c), st') -> Known s'.
  Proof.
    intros (K1 & K2 & K3 & K4 & K5). unfold de_step, bind at 1.
    destruct (rand_mat _ _ st) as [[r1|e] st1] eqn:E1; [|discriminate].
    apply replicateM_len in E1. cbn [de_p PP] in E1.
    cbn [de_list PP raise_if]. unfold bind at 1, ret at 1. unfold bind at 1.
    unfold de_sync, bind at 1.
    destruct (de_cands _ _ _ _ st1) as [[U|e] st2] eqn:E2; [|discriminate].
    assert (HU : length U = p).
    { revert E2. unfold de_cands, bind. cbn [de_p PP].
      destruct (mapM _ _ st1) as [[is|e] st3] eqn:E3; [|discriminate]. apply mapM_len in E3.
      destruct (mapM _ _ st3) as [[V|e] st4] eqn:E4; [|discriminate]. apply mapM_len in E4.
      destruct (replicateM _ _ st4) as [[ir|e] st5] eqn:E5; [|discriminate]. apply replicateM_len in E5.
      intro E6. apply mapM_len in E6. rewrite E6, map3_length, combine_length.
      rewrite seq_length in E3. unfold matrix, vec in *. lia. }
    unfold bind at 1, selection_sync, bind at 1. cbn [de_mode PP].
    destruct (eval_pure U st2) as (l & Hl & ->).
    unfold bind at 1. destruct (np_argmin _ _) as [[i|e] st3]; [|discriminate].
    unfold ret at 1. unfold bind at 1.
    destruct (set_alias _ _ _) as [[[]|e] st4]; [|discriminate].
    unfold ret at 1. cbn [de_nout PP rec_write]. unfold bind at 1, ret at 1.
    unfold ret. intro H. inversion H. clear H. subst s'.
    unfold Known. cbn. rewrite K2, sel_values. repeat split.
    unfold sel_x. rewrite map2_length, !combine_length, !map_length. unfold matrix, vec in *. lia.
  Qed.

  (** ** The loop *)
  Definition drv (m : Z) (al : bool) : Drv DES := de_drv (PP m al) true.

  Definition Rk (k : Z) (t1 t2 : list event) (s1 s2 : St) : Prop :=
    rs s1 = rs s2 /\ exists l1 l2, tr s1 = t1 ++ l1 /\ tr s2 = t2 ++ l2 /\
                                   Forall2 (Later k (Z.of_nat p)) l1 l2.
  Lemma Rk_closed k t1 t2 : Closed (Rk k t1 t2).
  Proof.
    intros s1 s2 (H1 & l1 & l2 & H2 & H3 & H4). split; [exact H1|]. split.
    - intro w. split; [reflexivity|]. exists l1, l2. auto.
    - intros w x y. split; [reflexivity|]. exists (l1 ++ [EEval x y]), (l2 ++ [EEval x y]). cbn.
      rewrite H2, H3, !app_assoc. repeat split; auto. apply Forall2_app; [exact H4|].
      repeat constructor.
  Qed.
  Lemma Rk_arg k t1 t2 (a1 a2 : bool) X : rel (Rk k t1 t2) (when a1 (set_arg X)) (when a2 (set_arg X)) eq.
  Proof.
    intros s1 s2 (H1 & l1 & l2 & H2 & H3 & H4).
    destruct a1, a2; cbn; (split; [split; [exact H1|exists l1, l2; auto]|reflexivity]).
  Qed.
  Lemma Rk_cb k t1 t2 X c c' : cb_x c = cb_x c' -> cb_fun c = cb_fun c' -> cb_nit c = (cb_nit c' + k)%Z ->
    cb_nfev c = (cb_nfev c' + k * Z.of_nat p)%Z -> cb_all c = cb_all c' ->
    rel (Rk k t1 t2) (call_cb X c) (call_cb X c') eq.
  Proof.
    intros C1 C2 C3 C4 C5 s1 s2 (H1 & l1 & l2 & H2 & H3 & H4). unfold call_cb. destruct HM as [_ HC].
    rewrite !HC. cbn. split; [|reflexivity]. split; [exact H1|].
    exists (l1 ++ [ECb X c None]), (l2 ++ [ECb X c' None]). rewrite H2, H3, !app_assoc.
    repeat split; auto. apply Forall2_app; [exact H4|]. repeat constructor; auto.
  Qed.

  Lemma r_tail k t1 t2 (a1 a2 cb : bool) m : (0 <= k)%Z -> forall n f1 f2 it s s',
    (m - it <= Z.of_nat n)%Z -> (n < f1)%nat -> (n < f2)%nat -> alike s s' ->
    rel (Rk k t1 t2) (drive (drv (m + k) a1) cb f1 (it + k) s) (drive (drv m a2) cb f2 it s')
        (LaterRes k (Z.of_nat p)).
  Proof.
    intros Hk. induction n as [|n IH]; intros f1 f2 it s s' Hn H1 H2 Hs;
      (destruct f1 as [|f1]; [lia|]); (destruct f2 as [|f2]; [lia|]); cbn [drive].
    all: eapply rel_bind;
      [apply (s_step (Rk k t1 t2) (m + k) m (it + k + 1) (it + 1) a1 a2 s s' (Rk_closed k t1 t2)
                     (Rk_arg k t1 t2 a1 a2) Hs)|].
    all: intros [u c] [v c'] (Huv & Hr & c0 & Hc0 & Hc & Hc'); cbn [fst snd] in *; subst v.
    all: assert (Hsame : c = c')
      by (rewrite Hc, Hc'; unfold fin; destruct c0; [reflexivity|];
          destruct (Z.leb_spec (m + k) (it + k + 1)), (Z.leb_spec m (it + 1)); (reflexivity || lia)).
    all: clear Hc; subst c.
    all: eapply rel_bind;
      [apply rel_when, Rk_cb; cbn; (reflexivity || lia)|]; intros _ _ _.
    all: destruct c' as [c|].
    1,3: unfold result; (eapply rel_bind; [apply rel_orelse|]); intros msg ? <-; apply rel_ret;
         unfold LaterRes; cbn; repeat split; try reflexivity; lia.
    - exfalso. destruct c0; cbn in Hc'; [discriminate|]. destruct (Z.leb_spec m (it + 1)); [discriminate|lia].
    - cbn [d_post drv de_drv]. eapply rel_bind; [apply (rel_ret _ u u (fun x y => x = u /\ y = u)); auto|]. intros x y [-> ->].
      replace (it + k + 1)%Z with (it + 1 + k)%Z by lia. apply IH; try lia.
      repeat split; auto.
  Qed.

  (** The long run passes through the state in which the short one ends. *)
  Lemma prefix m1 m al : forall f1 it s st r1 s1 fm,
    drive (drv m1 al) true f1 it s st = (inl r1, s1) -> r_status r1 = (-1)%Z -> (r_nit r1 < m)%Z ->
    Known s -> (m - it < Z.of_nat fm)%Z -> (0 <= it)%Z ->
    exists x fm' t c, drive (drv m al) true fm it s st = drive (drv m al) true fm' (r_nit r1) x s1 /\
      Known x /\ (m - r_nit r1 < Z.of_nat fm')%Z /\ (it < r_nit r1)%Z /\
      tr s1 = t ++ [ECb (des_X x) c None].
  Proof.
    induction f1 as [|f1 IH]; intros it s st r1 s1 fm HD Hst Hnit HK Hfm Hit; [discriminate|].
    cbn [drive] in HD.
    assert (Hrec : alike s s) by (destruct HK as (_ & _ & _ & _ & HK); repeat split; auto).
    assert (HCl : Closed eq) by (intros u v <-; auto).
    assert (HAl : forall X, rel eq (when al (set_arg X)) (when al (set_arg X)) eq).
    { intros X a b <-. destruct al; cbn; auto. }
    pose proof (s_step eq m1 m (it + 1) (it + 1) al al s s HCl
      HAl Hrec st st eq_refl) as HS1.
    unfold bind at 1 in HD. cbn [d_step drv de_drv] in HD.
    destruct (de_step (PP m1 al) true (it + 1) s st) as [[[u c]|e] st1] eqn:E1; [|discriminate].
    destruct (de_step (PP m al) true (it + 1) s st) as [[[v c']|e] st2] eqn:E2;
      cbn in HS1; destruct HS1 as [<- HS1]; [|contradiction].
    destruct HS1 as (<- & Hr & c0 & Hc0 & -> & ->).
    pose proof (step_known _ _ _ _ _ _ _ _ HK E1) as HKu.
    cbn [d_pop d_post de_drv drv when] in HD. unfold bind at 1, call_cb in HD.
    pose proof (proj2 HM) as HC. rewrite HC in HD.
    set (cs := cb_state (drv m1 al) (it + 1) u) in *.
    assert (Hlast : forall fm0, fm = S fm0 -> fin m (it + 1) c0 = None ->
       drive (drv m al) true fm it s st =
       drive (drv m al) true fm0 (it + 1) u
         (mkSt (rs st1) (tr st1 ++ [ECb (des_X u) cs None]) (argbuf st1))).
    { intros fm0 -> Hf. cbn [drive]. unfold bind at 1. cbn [d_step drv de_drv]. rewrite E2.
      cbn [d_pop d_post de_drv drv when]. unfold bind at 1, call_cb. rewrite HC, Hf.
      unfold bind, ret. reflexivity. }
    destruct (fin m1 (it + 1) c0) as [c1|] eqn:Ef.
    - unfold result, bind in HD. destruct (message c1) as [msg|] eqn:Emsg; cbn in HD; [|discriminate].
      injection HD as <- <-. cbn [r_status r_nit] in *. subst c1.
      destruct c0 as [c0|]; [cbn in Ef; congruence|].
      destruct fm as [|fm0]; [lia|].
      exists u, fm0, (tr st1), cs. split; [|repeat split; auto; try apply HKu; lia].
      apply Hlast; [reflexivity|]. cbn. destruct (Z.leb_spec m (it + 1)); [lia|reflexivity].
    - unfold bind at 1, ret at 1 in HD.
      assert (Hlt : (it + 1 < r_nit r1)%Z).
      { revert HD. cut (forall n i z s0 r z', drive (drv m1 al) true n i z s0 = (inl r, z') -> (i < r_nit r)%Z).
        { intros Hcut HD. exact (Hcut _ _ _ _ _ _ HD). }
        induction n as [|n IHn]; intros i z s0 r z' H; [discriminate|]. cbn [drive] in H.
        unfold bind at 1 in H. destruct (d_step _ _ _ s0) as [[[y cy]|e] sy]; [|discriminate].
        unfold bind at 1 in H. destruct (when _ _ sy) as [[[]|e] sz]; [|discriminate].
        destruct cy as [cy|].
        - unfold result, bind in H. destruct (message cy); cbn in H; [|discriminate].
          injection H as <- _. cbn. lia.
        - unfold bind at 1 in H. destruct (d_post _ _ _ sz) as [[y'|e] sq]; [|discriminate].
          apply IHn in H. lia. }
      destruct fm as [|fm0]; [lia|].
      destruct (IH _ _ _ _ _ fm0 HD Hst Hnit HKu ltac:(lia) ltac:(lia))
        as (x & fm' & t & cc & H1 & H2 & H3 & H4 & H5).
      exists x, fm', t, cc. split; [|repeat split; auto; try apply H2; lia].
      rewrite <- H1. apply Hlast; [reflexivity|].
      destruct c0; cbn in *; [discriminate|]. destruct (Z.leb_spec m (it + 1)); [lia|reflexivity].
  Qed.
End Resume.

Section Main.
  Context {N : Num} {E : Env N}.
  Variable g : vec -> T.
  Hypothesis HM : Memoryless g.
  Hypothesis HS : SchedOK.

  Lemma bind_inl {A B} (m : M A) (k : A -> M B) s r s' :
    bind m k s = (inl r, s') -> exists a s1, m s = (inl a, s1) /\ k a s1 = (inl r, s').
  Proof. unfold bind. destruct (m s) as [[a|e] s1]; [|discriminate]. eauto. Qed.
  Lemma bind_eq {A B} (m : M A) (k : A -> M B) s a s1 : m s = (inl a, s1) -> bind m k s = k a s1.
  Proof. unfold bind. intros ->. reflexivity. Qed.
  Lemma raise_if_inl c e s a s' : raise_if c e s = (inl a, s') -> c = false /\ s' = s.
  Proof. destruct c; cbn; [discriminate|]. intro H. inversion H. auto. Qed.
  Lemma orelse_inl {A} (o : option A) e s a s' : orelse o e s = (inl a, s') -> o = Some a /\ s' = s.
  Proof. destruct o; cbn; [|discriminate]. intro H. inversion H. auto. Qed.
  Lemma raise_if_no c e s : c = false -> raise_if c e s = (inl tt, s).
  Proof. intros ->. reflexivity. Qed.

  Lemma mode_local sync w k m s s' : k <> Some "mpi"%string ->
    eval_kindM sync w k s = (inl m, s') -> m <> Mpi /\ s' = s /\ forall s, eval_kindM sync w k s = (inl m, s).
  Proof.
    intro Hb. unfold eval_kindM. destruct (eval_kind sync w k) as [m'|e] eqn:Em; [|discriminate].
    intro H. inversion H. subst. split; [|auto]. intros ->. revert Em. unfold eval_kind, wrapper_kind.
    destruct k as [k|].
    - destruct (String.eqb k "") eqn:Eb.
      + cbn. destruct (negb _), sync; cbn; discriminate.
      + assert (Hm : String.eqb k "mpi" = false) by (apply String.eqb_neq; congruence).
        destruct (in_prefer k) eqn:Ei; rewrite ?Ei, ?Hm; cbn.
        * destruct (negb _), sync; cbn; discriminate.
        * destruct sync; cbn; discriminate.
    - cbn. destruct (negb _), sync; cbn; discriminate.
  Qed.

  Lemma check_pop_inl a s u s' : check_pop a s = (inl u, s') ->
    s' = s /\ a_callable a = true /\ ndim_is 2 (a_bounds a) = true /\ (2 <= a_popsize a)%Z /\
    match a_x0 a with None => True | Some x => length (nd_rows x) = Z.to_nat (a_popsize a) end.
  Proof.
    unfold check_pop. intro H.
    apply bind_inl in H. destruct H as (? & ? & H1 & H). apply raise_if_inl in H1. destruct H1 as [H1 ->].
    apply bind_inl in H. destruct H as (? & ? & H2 & H). apply raise_if_inl in H2. destruct H2 as [H2 ->].
    apply bind_inl in H. destruct H as (? & ? & H3 & H). apply raise_if_inl in H3. destruct H3 as [H3 ->].
    apply bind_inl in H. destruct H as (? & ? & H4 & H). apply raise_if_inl in H4. destruct H4 as [H4 ->].
    apply raise_if_inl in H. destruct H as [H5 ->].
    apply negb_false_iff in H1, H2. apply Z.ltb_ge in H4. repeat split; auto.
    destruct (a_x0 a) as [q0|]; [|exact I]. apply orb_false_iff in H3. destruct H3 as [H3 _].
    apply negb_false_iff in H3, H5. apply Z.eqb_eq in H5. destruct q0; cbn in *; try discriminate. lia.
  Qed.

  Lemma drive_nit {S} (D : Drv S) cb : forall n i z s0 r z',
    drive D cb n i z s0 = (inl r, z') -> (i < r_nit r)%Z.
  Proof.
    induction n as [|n IHn]; intros i z s0 r z' H; [discriminate|]. cbn [drive] in H.
    apply bind_inl in H. destruct H as ([y cy] & ? & _ & H).
    apply bind_inl in H. destruct H as (? & ? & _ & H). destruct cy as [cy|].
    - apply bind_inl in H. destruct H as (? & ? & _ & H). inversion H. cbn. lia.
    - apply bind_inl in H. destruct H as (? & ? & _ & H). apply IHn in H. lia.
  Qed.

  Definition known_state (X : matrix) : DES :=
    let i := argmin (map g X) in mkDES X (nth i X []) (map g X) (nth i (map g X) n0) (map g X) None.
  Definition first_cb (X : matrix) : event :=
    let i := argmin (map g X) in
    ECb X {| cb_x := nth i X []; cb_fun := nth i (map g X) n0; cb_nfev := Z.of_nat (length X);
             cb_nit := 1; cb_all := None |} None.

  (** What comes before the loop does not depend on maxiter. *)
  Lemma setup A st r1 s1 : a_return_all (dea A) = false -> a_backend (dea A) <> Some "mpi"%string ->
    a_callback (dea A) = CbFun -> is_sync (dea_updating A) (dea A) = true ->
    de_minimize A st = (inl r1, s1) ->
    exists strat con lo up mode (al : bool) X0 st0, mode <> Mpi /\
      length X0 = Z.to_nat (a_popsize (dea A)) /\ (2 <= a_popsize (dea A))%Z /\
      (forall m, de_minimize (lasting m A) st =
        drive (drv (dea_mutation A) (dea_recombination A) strat con (Z.to_nat (a_popsize (dea A)))
                   (nd_len (a_bounds (dea A))) lo up (a_xtol (dea A)) (a_ftol (dea A)) mode m al)
              true (fuel m) 1 (known_state X0) st0) /\
      (forall X m w a0, length X = Z.to_nat (a_popsize (dea A)) -> exists l s2,
        Permutation l X /\ tr s2 = map (ev g) l ++ [first_cb X] /\ rs s2 = w /\
        exec (de_minimize (resuming X (lasting m A))) w a0 =
        drive (drv (dea_mutation A) (dea_recombination A) strat con (Z.to_nat (a_popsize (dea A)))
                   (nd_len (a_bounds (dea A))) lo up (a_xtol (dea A)) (a_ftol (dea A)) mode m true)
              true (fuel m) 1 (known_state X) s2).
  Proof.
    intros Hra Hb Hcb Hsy HR. unfold de_minimize in HR.
    apply bind_inl in HR. destruct HR as (? & ? & E1 & HR).
    destruct (check_pop_inl _ _ _ _ E1) as (-> & C1 & C2 & C3 & C4).
    apply bind_inl in HR. destruct HR as (? & ? & E2 & HR). apply raise_if_inl in E2. destruct E2 as [E2 ->].
    apply bind_inl in HR. destruct HR as (? & ? & E3 & HR). apply raise_if_inl in E3. destruct E3 as [E3 ->].
    apply bind_inl in HR. destruct HR as (? & ? & E4 & HR). apply raise_if_inl in E4. destruct E4 as [E4 ->].
    apply bind_inl in HR. destruct HR as (strat & ? & E5 & HR). apply orelse_inl in E5. destruct E5 as [E5 ->].
    apply bind_inl in HR. destruct HR as (? & st1 & E6 & HR).
    rewrite Hsy in HR. unfold de in HR.
    apply bind_inl in HR. destruct HR as (mode & ? & E7 & HR).
    destruct (mode_local _ _ _ _ _ _ Hb E7) as (Hm & -> & Hmode).
    apply bind_inl in HR. destruct HR as ([lo up] & st2 & E8 & HR).
    assert (Hun : forall s, unpack_bounds (a_bounds (dea A)) s = (inl (lo, up), s)).
    { revert E8. unfold unpack_bounds. destruct (a_bounds (dea A)) as [q0|v|[|[|[|c]]] m]; try discriminate.
      intro H. inversion H. reflexivity. }
    rewrite Hun in E8. inversion E8. subst st2. clear E8.
    apply bind_inl in HR. destruct HR as (con & ? & E9 & HR). apply orelse_inl in E9. destruct E9 as [E9 ->].
    apply bind_inl in HR. destruct HR as (X0 & st3 & E10 & HR).
    assert (HX0 : length X0 = Z.to_nat (a_popsize (dea A))).
    { destruct (a_x0 (dea A)) as [q0|].
      - inversion E10. subst. exact C4.
      - unfold lhs in E10. apply bind_inl in E10. destruct E10 as (? & ? & _ & E10).
        apply bind_inl in E10. destruct E10 as (? & ? & _ & E10). inversion E10.
        rewrite !map_length, seq_length. reflexivity. }
    set (isl := match a_x0 (dea A) with Some _ => negb (a_x0_array (dea A)) | None => false end) in *.
    set (al := match a_x0 (dea A) with Some _ => a_x0_array (dea A) | None => false end) in *.
    apply bind_inl in HR. destruct HR as (? & ? & E11 & HR). apply raise_if_inl in E11. destruct E11 as [E11 ->].
    destruct (eval_pure g HM HS mode Hm X0 st3) as (l0 & Hl0 & Hev0).
    rewrite (bind_eq _ _ _ _ _ Hev0) in HR. cbv beta iota in HR.
    apply bind_inl in HR. destruct HR as (? & st4 & E12 & HR).
    assert (Hne : X0 <> []) by (intro H; rewrite H in HX0; cbn in HX0; lia).
    assert (Hgb : forall X s, X <> [] -> np_argmin (map g X) s = (inl (argmin (map g X)), s)).
    { intros X s H. destruct X; [congruence|]. reflexivity. }
    rewrite (bind_eq _ _ _ _ _ (Hgb _ _ Hne)) in HR. rewrite Hra in HR.
    cbv zeta in HR. cbn [rec_alloc] in HR. rewrite (bind_eq (ret None) _ _ None st4 eq_refl) in HR.
    cbn [rec_write] in HR. rewrite (bind_eq (ret None) _ _ None st4 eq_refl) in HR.
    assert (Hcb' : has_cb (dea A) = true) by (unfold has_cb; rewrite Hcb; reflexivity).
    rewrite Hcb' in HR. cbn [when] in HR.
    apply bind_inl in HR. destruct HR as (? & st5 & E13 & HR).
    assert (Hisl : isl = false).
    { destruct isl; [|reflexivity]. exfalso. revert HR. unfold fuel. rewrite Nat.add_comm. cbn [plus drive].
      intro HR. apply bind_inl in HR. destruct HR as (? & ? & HR & _). cbn [d_step de_drv] in HR.
      unfold de_step in HR. apply bind_inl in HR. destruct HR as (? & ? & _ & HR). discriminate. }
    exists strat, con, lo, up, mode, al, X0, st5.
    split; [exact Hm|]. split; [exact HX0|]. split; [exact C3|]. split.
    - intro m. unfold de_minimize.
      rewrite (bind_eq (check_pop (dea (lasting m A))) _ _ _ _ E1).
      rewrite (bind_eq _ _ _ _ _ (raise_if_no _ _ _ E2)).
      rewrite (bind_eq _ _ _ _ _ (raise_if_no _ _ _ E3)).
      unfold check_updating. rewrite (bind_eq _ _ _ _ _ (raise_if_no _ _ _ E4)).
      cbn [dea_strategy lasting]. rewrite E5.
      rewrite (bind_eq (orelse (Some strat) KeyError) _ _ strat st eq_refl).
      rewrite (bind_eq (seed_and_cb (dea (lasting m A))) _ _ _ _ E6).
      change (is_sync (dea_updating (lasting m A)) (dea (lasting m A))) with (is_sync (dea_updating A) (dea A)).
      rewrite Hsy. unfold de.
      cbn [dea lasting a_workers a_backend a_bounds a_constraints a_popsize a_x0 a_x0_array a_return_all
           a_verbosity a_maxiter a_xtol a_ftol dea_mutation dea_recombination].
      rewrite (bind_eq _ _ _ _ _ (Hmode st1)). rewrite (bind_eq _ _ _ _ _ (Hun st1)). cbv beta iota.
      rewrite E9. rewrite (bind_eq (orelse (Some con) KeyError) _ _ con st1 eq_refl).
      rewrite (bind_eq _ _ _ _ _ E10). fold isl al.
      rewrite (bind_eq _ _ _ _ _ (raise_if_no _ _ _ E11)).
      rewrite (bind_eq _ _ _ _ _ Hev0). cbv beta iota.
      rewrite (bind_eq _ _ _ _ _ E12).
      rewrite (bind_eq _ _ _ _ _ (Hgb _ _ Hne)). rewrite Hra. cbn [rec_alloc].
      rewrite (bind_eq (ret None) _ _ None st4 eq_refl). cbn [rec_write].
      rewrite (bind_eq (ret None) _ _ None st4 eq_refl). cbv zeta.
      change (has_cb _) with (has_cb (dea A)). rewrite Hcb'. cbn [when].
      rewrite Hisl in *.
      etransitivity; [apply bind_eq; exact E13|]. reflexivity.
    - intros X m w a0 HX.
      assert (HneX : X <> []) by (intro H; rewrite H in HX; cbn in HX; lia).
      set (s0 := mkSt w [] a0).
      destruct (eval_pure g HM HS mode Hm X s0) as (l & Hl & Hev).
      exists l, (mkSt w (map (ev g) l ++ [first_cb X]) (Some X)).
      split; [exact Hl|]. split; [reflexivity|]. split; [reflexivity|].
      unfold exec. fold s0. unfold de_minimize.
      assert (Q1 : check_pop (dea (resuming X (lasting m A))) s0 = (inl tt, s0)).
      { unfold check_pop. cbn [dea resuming lasting a_callable a_bounds a_x0 a_popsize].
        rewrite C1, C2. cbn [negb ndim_is nd_cols nd_len].
        assert (P1 : (nd_len (a_bounds (dea A)) =? nd_len (a_bounds (dea A)))%nat = true) by apply Nat.eqb_refl.
        assert (P2 : (a_popsize (dea A) <? 2)%Z = false) by (apply Z.ltb_ge; exact C3).
        assert (P3 : (Z.of_nat (length X) =? a_popsize (dea A))%Z = true) by (apply Z.eqb_eq; lia).
        rewrite P1, P2. unfold matrix, vec in *. rewrite P3. reflexivity. }
      rewrite (bind_eq _ _ _ _ _ Q1).
      rewrite (bind_eq _ _ _ _ _ (raise_if_no _ _ _ E2)).
      rewrite (bind_eq _ _ _ _ _ (raise_if_no _ _ _ E3)).
      unfold check_updating. rewrite (bind_eq _ _ _ _ _ (raise_if_no _ _ _ E4)).
      cbn [dea_strategy lasting resuming]. rewrite E5.
      rewrite (bind_eq (orelse (Some strat) KeyError) _ _ strat s0 eq_refl).
      assert (Q2 : seed_and_cb (dea (resuming X (lasting m A))) s0 = (inl tt, s0)).
      { unfold seed_and_cb. cbn [dea resuming lasting a_seed a_callback]. rewrite Hcb. reflexivity. }
      rewrite (bind_eq _ _ _ _ _ Q2).
      change (is_sync _ _) with (is_sync (dea_updating A) (dea A)).
      rewrite Hsy. unfold de.
      cbn [dea lasting resuming a_workers a_backend a_bounds a_constraints a_popsize a_x0 a_x0_array a_return_all
           a_verbosity a_maxiter a_xtol a_ftol dea_mutation dea_recombination nd_rows negb andb].
      rewrite (bind_eq _ _ _ _ _ (Hmode s0)). rewrite (bind_eq _ _ _ _ _ (Hun s0)). cbv beta iota.
      rewrite E9. rewrite (bind_eq (orelse (Some con) KeyError) _ _ con s0 eq_refl).
      rewrite (bind_eq (ret X) _ _ X s0 eq_refl).
      rewrite (bind_eq (raise_if false AttributeError) _ _ tt s0 eq_refl).
      rewrite (bind_eq _ _ _ _ _ Hev). cbv beta iota.
      set (s2 := mkSt (rs s0) (tr s0 ++ map (ev g) l) (Some X)).
      rewrite (bind_eq (when true (set_arg X)) _ (mkSt (rs s0) (tr s0 ++ map (ev g) l) (argbuf s0)) tt s2 eq_refl).
      rewrite (bind_eq _ _ _ _ _ (Hgb X s2 HneX)). rewrite Hra. cbn [rec_alloc].
      rewrite (bind_eq (ret None) _ _ None s2 eq_refl). cbn [rec_write].
      rewrite (bind_eq (ret None) _ _ None s2 eq_refl). cbv zeta.
      change (has_cb _) with (has_cb (dea A)). rewrite Hcb'. cbn [when].
      etransitivity; [apply (bind_eq _ _ _ tt (mkSt w (map (ev g) l ++ [first_cb X]) (Some X)))|reflexivity].
      unfold call_cb. destruct HM as [_ ->]. cbn. unfold first_cb. rewrite HX. 
      destruct (Z.to_nat (a_popsize (dea A))); reflexivity.
  Qed.

  Lemma known_ok X q : length X = q -> Known g q (known_state X).
  Proof. intros <-. repeat split. Qed.

  (** The run of [maxiter] = n1 ended by maxiter after [nit] generations; the last callback saw
      [X].  The call resumed from [X] with maxiter [m] behaves like the run with maxiter
      [m + nit - 1], from generation [nit] on: it evaluates [X] again, and after its first callback
      all calls of user code are those of the long run, with the counters shifted. *)
  Theorem C80_resume A w a0 r1 s1 m a1 :
    is_sync (dea_updating A) (dea A) = true -> a_backend (dea A) <> Some "mpi"%string ->
    a_return_all (dea A) = false -> a_callback (dea A) = CbFun ->
    exec (de_minimize A) w a0 = (inl r1, s1) -> r_status r1 = (-1)%Z -> (1 < m)%Z ->
    let k := (r_nit r1 - 1)%Z in
    exists t X c, tr s1 = t ++ [ECb X c None] /\
      match exec (de_minimize (lasting (m + k) A)) w a0,
            exec (de_minimize (resuming X (lasting m A))) (rs s1) a1 with
      | (ro, sl), (ro', sr) =>
          rs sl = rs sr /\
          (exists l l1 l2 cX, Permutation l X /\
             tr sl = tr s1 ++ l1 /\ tr sr = map (fun x => EEval x (inl (g x))) l ++ ECb X cX None :: l2 /\
             Forall2 (Later k (a_popsize (dea A))) l1 l2) /\
          match ro, ro' with
          | inl r, inl r' => LaterRes k (a_popsize (dea A)) r r'
          | inr e, inr e' => e = e'
          | _, _ => False
          end
      end.
  Proof.
    intros Hsy Hb Hra Hcb HR Hst Hm k. unfold exec in HR.
    destruct (setup A _ r1 s1 Hra Hb Hcb Hsy HR)
      as (strat & con & lo & up & mode & al & X0 & st0 & Hmode & HX0 & Hp & Hrun & Hres).
    assert (HA : lasting (a_maxiter (dea A)) A = A) by (destruct A as [[] ? ? ? ?]; reflexivity).
    pose proof (Hrun (a_maxiter (dea A))) as H1. rewrite HA, HR in H1. symmetry in H1.
    pose proof (drive_nit _ _ _ _ _ _ _ _ H1) as Hk.
    destruct (prefix g HM HS _ _ _ _ _ _ _ _ _ _ mode Hmode _ (m + k) al _ _ _ _ _ _ (fuel (m + k)) H1 Hst
                ltac:(lia) (known_ok _ _ HX0) ltac:(unfold fuel; lia) ltac:(lia))
      as (x & fm & t & c & Hlong & HK & Hfm & _ & Ht).
    destruct HK as (K1 & K2 & K3 & K4 & K5).
    exists t, (des_X x), c. split; [exact Ht|].
    destruct (Hres (des_X x) m (rs s1) a1 K1) as (l & s2 & Hl & Ht2 & Hrs & Hshort).
    unfold exec at 1. rewrite (Hrun (m + k)%Z), Hlong, Hshort.
    replace (r_nit r1) with (1 + k)%Z by lia.
    pose proof (r_tail g HM (dea_mutation A) (dea_recombination A) strat con (Z.to_nat (a_popsize (dea A)))
      (nd_len (a_bounds (dea A))) lo up (a_xtol (dea A)) (a_ftol (dea A)) mode Hmode k (tr s1) (tr s2)
      al true true m ltac:(lia) (Z.to_nat (m - 1)) fm (fuel m) 1 x (known_state (des_X x)) ltac:(lia) ltac:(lia)
      ltac:(unfold fuel; lia) ltac:(repeat split; auto) s1 s2) as HT.
    destruct HT as [(R1 & l1 & l2 & R2 & R3 & R4) HT].
    { split; [auto|]. exists [], []. rewrite !app_nil_r. repeat split; constructor. }
    clear Hlong H1 Hshort.
    destruct (drive _ true fm _ _ _) as [ro sl], (drive _ true (fuel m) _ _ _) as [ro' sr].
    cbn [fst snd] in *. rewrite Z2Nat.id in * by lia. split; [exact R1|]. split; [|exact HT].
    exists l, l1, l2. eexists. split; [exact Hl|]. split; [exact R2|]. split; [|exact R4].
    rewrite R3, Ht2, <- app_assoc. reflexivity.
  Qed.
End Main.
