(** C78: how bad a value is does not matter to de, pso and cpso once it is worse than every value
    of the initial population: the objective may return any such value (a large number, infinity,
    NaN) and the run is the same. *)
From Coq Require Import Permutation.
From Verif Require Import Base Num Env Common DE CPSO Rel Hoare Disc EvalRules Gen Steps Best Inst.

Local Ltac vl := unfold matrix, vec in *; lia.

(** ** Specification *)
Section Spec.
  Context {N : Num}.
  (** a level that the values of the initial population do not exceed *)
  Variable b : T.

  (** [y] is above the level, or not a number *)
  Definition Above (y : T) : Prop := nleb y b = false.
  Definition SameValue (y y' : T) : Prop := y = y' \/ (Above y /\ Above y').
  (** two answers of an objective *)
  Definition SameAnswer {W} (p q : (T + nat) * W) : Prop :=
    snd p = snd q /\
    match fst p, fst q with
    | inl y, inl y' => SameValue y y'
    | inr e, inr e' => e = e'
    | _, _ => False
    end.
  (** two calls of user code: the same point, or the same arguments of the callback *)
  Definition SameCall (e e' : event) : Prop :=
    match e, e' with
    | EEval x (inl y), EEval x' (inl y') => x = x' /\ SameValue y y'
    | e, e' => e = e'
    end.
  (** the same environment with another objective *)
  Definition other_fun (E : Env N)
      (fn : vec -> @RNG N E * @US N E -> (T + nat) * (@RNG N E * @US N E)) : Env N :=
    @mkEnv N (@RNG N E) (@US N E) (@e_seed N E) (@e_rand N E) (@e_randn N E) (@e_perm N E)
           (@e_randint N E) fn (@e_cb N E) (@e_scb N E) (@e_sched N E) (@e_rank N E)
           (@e_mpisize N E) (@e_bcast N E) (@e_allreduce N E) (@e_argsort N E)
           (@e_percentile N E) (@e_median N E) (@e_eigh N E) (@e_empty N E).
End Spec.

Section Refuse.
  Context {N : Num} {L : OrdLaws num_arith} {E : Env N}.
  Variable b : T.
  Variable fn : vec -> @RNG N E * @US N E -> (T + nat) * (@RNG N E * @US N E).
  Hypothesis HF : forall x w, SameAnswer b (e_fun x w) (fn x w).
  Hypothesis HSC : @SchedOK N E.
  Let E' : Env N := other_fun E fn.
  Hint Resolve disc_np_argmin disc_rec_write disc_rec_alloc : disc.

  Definition RG (s1 : @St N E) (s2 : @St N E') : Prop :=
    rs s1 = rs s2 /\ argbuf s1 = argbuf s2 /\ Forall2 (SameCall b) (tr s1) (tr s2).
  Definition R0 (s1 : @St N E) (s2 : @St N E') : Prop := RG s1 s2 /\ tr s1 = [].

  (** Relations that only look at the generator and the trace. *)
  Definition Moves (R : @St N E -> @St N E' -> Prop) : Prop :=
    forall s1 s2, R s1 s2 -> rs s1 = rs s2 /\ argbuf s1 = argbuf s2 /\
      forall w a, R (@mkSt N E w (tr s1) a) (@mkSt N E' w (tr s2) a).
  Lemma moves_RG : Moves RG.
  Proof. intros s1 s2 (H1 & H2 & H3). split; [exact H1|]. split; [exact H2|]. intros w a. unfold RG. cbn. auto. Qed.
  Lemma moves_R0 : Moves R0.
  Proof.
    intros s1 s2 [H Ht]. destruct (moves_RG _ _ H) as (H1 & H2 & H3). split; [exact H1|]. split; [exact H2|].
    intros w a. split; [apply H3|exact Ht].
  Qed.

  Section Draws.
    Variable R : @St N E -> @St N E' -> Prop.
    Hypothesis HR : Moves R.
    Notation relR := (@rel N E E' R).
    Lemma r_draw {A} (f : @RNG N E -> A * @RNG N E) : relR (@draw N E A f) (@draw N E' A f) eq.
    Proof.
      intros s1 s2 H. destruct (HR _ _ H) as (H1 & H2 & H3). unfold draw.
      change (@RNG N E') with (@RNG N E). change (@US N E') with (@US N E).
      rewrite <- H1. destruct (f (fst (rs s1))) as [a r]. cbn. rewrite <- H2. split; [apply H3|reflexivity].
    Qed.
    Lemma r_rand : relR rand rand eq. Proof. exact (r_draw e_rand). Qed.
    Lemma r_perm n : relR (perm n) (perm n) eq. Proof. exact (r_draw (e_perm n)). Qed.
    Lemma r_randint n : relR (randint n) (randint n) eq. Proof. exact (r_draw (e_randint n)). Qed.
    Lemma r_seed o : relR (seed o) (seed o) eq.
    Proof.
      destruct o as [z|]; [|apply rel_ret; reflexivity].
      intros s1 s2 H. destruct (HR _ _ H) as (H1 & H2 & H3). cbn. rewrite <- H1, <- H2. split; [apply H3|reflexivity].
    Qed.
    Lemma r_set_arg X : relR (set_arg X) (set_arg X) eq.
    Proof.
      intros s1 s2 H. destruct (HR _ _ H) as (H1 & H2 & H3). cbn. rewrite <- H1. split; [apply H3|reflexivity].
    Qed.
    Lemma r_uniform lo hi : relR (uniform lo hi) (uniform lo hi) eq.
    Proof. eapply rel_bind; [apply r_rand|]. intros x y <-. apply rel_ret. reflexivity. Qed.
    Lemma r_urange l u : relR (urange l u) (urange l u) eq.
    Proof. unfold urange. destruct (frange _ _); [apply rel_ret; reflexivity|apply rel_raise]. Qed.
    Lemma r_uniform_row l u : relR (uniform_row l u) (uniform_row l u) eq.
    Proof. apply rel_mapM. intros. apply r_uniform. Qed.
    Lemma r_uniform_vec l u : relR (uniform_vec l u) (uniform_vec l u) eq.
    Proof. eapply rel_bind; [apply r_urange|]. intros ? ? _. apply r_uniform_row. Qed.
    Lemma r_uniform_mat p l u : relR (uniform_mat p l u) (uniform_mat p l u) eq.
    Proof. eapply rel_bind; [apply r_urange|]. intros ? ? _. apply rel_replicateM, r_uniform_row. Qed.
    Lemma r_rand_mat p d : relR (rand_mat p d) (rand_mat p d) eq.
    Proof. apply rel_replicateM, rel_replicateM, r_rand. Qed.
    Lemma r_lhs p d l u : relR (lhs p d l u) (lhs p d l u) (fun x y => x = y /\ length x = p).
    Proof.
      eapply rel_bind; [apply r_rand_mat|]. intros x y <-. cbn zeta.
      eapply rel_bind; [apply rel_replicateM, r_perm|]. intros c c' <-.
      apply rel_ret. split; [reflexivity|]. rewrite !map_length, seq_length. reflexivity.
    Qed.
    Lemma r_raise_if c e : relR (raise_if c e) (raise_if c e) (fun _ _ => c = false).
    Proof. destruct c; [apply rel_raise | apply rel_ret; reflexivity]. Qed.
    Lemma r_seed_and_cb a : relR (seed_and_cb a) (seed_and_cb a) eq.
    Proof. unfold seed_and_cb. eapply rel_bind; [apply r_seed|]. intros _ _ _. apply rel_raise_if. Qed.
    Lemma r_eval_kind sync w k : k <> Some "mpi"%string ->
      relR (eval_kindM sync w k) (eval_kindM sync w k) (fun x y => x = y /\ x <> Mpi).
    Proof.
      intro Hb. unfold eval_kindM. destruct (eval_kind sync w k) as [m|e] eqn:Em; [|apply rel_raise].
      apply rel_ret. split; [reflexivity|]. intros ->. revert Em. unfold eval_kind, wrapper_kind.
      destruct k as [k|].
      - destruct (String.eqb k "") eqn:Eb.
        + cbn. destruct (negb _), sync; cbn; discriminate.
        + assert (Hm : String.eqb k "mpi" = false).
          { apply String.eqb_neq. intros ->. apply Hb. reflexivity. }
          destruct (in_prefer k) eqn:Ei; rewrite ?Ei, ?Hm; cbn.
          * destruct (negb _), sync; cbn; discriminate.
          * destruct sync; cbn; discriminate.
      - cbn. destruct (negb _), sync; cbn; discriminate.
    Qed.
    Definition Checked (a : Args) : Prop :=
      (2 <= a_popsize a)%Z /\
      match a_x0 a with None => True | Some x => Z.of_nat (nd_len x) = a_popsize a end /\
      match a_x0 a with None => True | Some x => ndim_is 2 x = true end.
    Lemma r_check_pop a : relR (check_pop a) (check_pop a) (fun _ _ => Checked a).
    Proof.
      unfold check_pop.
      eapply rel_bind; [apply r_raise_if|]. intros _ _ _.
      eapply rel_bind; [apply r_raise_if|]. intros _ _ _.
      eapply rel_bind; [apply r_raise_if|]. intros ? ? H1. cbv beta in H1.
      eapply rel_bind; [apply r_raise_if|]. intros ? ? H2. cbv beta in H2.
      eapply rel_conseq; [apply r_raise_if|]. intros ? ? H3. cbv beta in H3.
      apply Z.ltb_ge in H2. unfold Checked. split; [exact H2|].
      destruct (a_x0 a) as [x|]; [|auto]. apply orb_false_iff in H1. destruct H1 as [H1 _].
      rewrite negb_false_iff in H1, H3. apply Z.eqb_eq in H3. auto.
    Qed.
    Lemma r_pop0 a d l u : Checked a ->
      relR (match a_x0 a with Some x => ret (nd_rows x) | None => lhs (Z.to_nat (a_popsize a)) d l u end)
           (match a_x0 a with Some x => ret (nd_rows x) | None => lhs (Z.to_nat (a_popsize a)) d l u end)
           (fun X Y => X = Y /\ length X = Z.to_nat (a_popsize a)).
    Proof.
      intros (H1 & H2 & H3). destruct (a_x0 a) as [x|]; [|apply r_lhs].
      apply rel_ret. split; [reflexivity|].
      destruct x; cbn in H3; try discriminate. cbn in *. lia.
    Qed.
  End Draws.

  Notation rel' := (@rel N E E' RG).
  Notation rel0 := (@rel N E E' R0).
  Notation SV := (SameValue b).
  Notation Good := (fun y : T => nleb y b = true).

  (** ** Calls of user code *)
  Lemma r_call_fun x : rel' (call_fun x) (call_fun x) SV.
  Proof.
    intros s1 s2 (H1 & H2 & H3). unfold call_fun. change (@e_fun N E') with fn.
    change (@RNG N E') with (@RNG N E) in *. change (@US N E') with (@US N E) in *.
    rewrite <- H1. pose proof (HF x (rs s1)) as HV. unfold SameAnswer in HV.
    destruct (e_fun x (rs s1)) as [[y|e] w], (fn x (rs s1)) as [[y'|e'] w']; cbn in HV;
      destruct HV as [<- HV]; try contradiction; unfold RG; cbn.
    - split; [|exact HV]. split; [reflexivity|]. split; [exact H2|]. apply Forall2_app; [exact H3|]. constructor; [|constructor]. split; auto.
    - subst e'. split; [|reflexivity]. split; [reflexivity|]. split; [exact H2|]. apply Forall2_app; [exact H3|]. constructor; [|constructor]. reflexivity.
  Qed.
  Lemma r_call_cb X st : rel' (call_cb X st) (call_cb X st) eq.
  Proof.
    intros s1 s2 (H1 & H2 & H3). unfold call_cb. change (@e_cb N E') with (@e_cb N E).
    change (@RNG N E') with (@RNG N E) in *. change (@US N E') with (@US N E) in *.
    rewrite <- H1. destruct (e_cb X st (rs s1)) as [r w]. unfold RG. cbn. split; [|destruct r; reflexivity].
    split; [reflexivity|]. split; [exact H2|]. apply Forall2_app; [exact H3|]. constructor; [|constructor]. reflexivity.
  Qed.

  Lemma sv_refl y : SV y y. Proof. left. reflexivity. Qed.
  Lemma svs_refl (v : vec) : Forall2 SV v v.
  Proof. induction v; constructor; auto using sv_refl. Qed.
  Lemma r_eval_serial X : rel' (eval_serial X) (eval_serial X) (Forall2 SV).
  Proof.
    unfold eval_serial. induction X as [|x X IH]; cbn [mapM]; [apply rel_ret; constructor|].
    eapply rel_bind; [apply r_call_fun|]. intros y y' Hy.
    eapply rel_bind; [exact IH|]. intros u v Hu. apply rel_ret. constructor; assumption.
  Qed.
  Lemma svs_upd i y y' : forall u v, SV y y' -> Forall2 SV u v -> Forall2 SV (upd i y u) (upd i y' v).
  Proof.
    induction i as [|i IH]; intros u v Hy H; destruct H; cbn; constructor; auto.
  Qed.
  Lemma r_fold X (order : list nat) : forall f1 f2 : vec, Forall2 SV f1 f2 ->
    rel' (foldM (fun f i => y <- call_fun (nth i X []) ;; ret (upd i y f)) f1 order)
         (foldM (fun f i => y <- call_fun (nth i X []) ;; ret (upd i y f)) f2 order) (Forall2 SV).
  Proof.
    induction order as [|k order IH]; intros f1 f2 H; cbn [foldM]; [apply rel_ret; exact H|].
    eapply rel_bind.
    - eapply rel_bind; [apply r_call_fun|]. intros y y' Hy. apply rel_ret.
      apply (svs_upd k y y' f1 f2 Hy H).
    - intros u v Hu. apply IH, Hu.
  Qed.
  Definition Evd (p q : matrix * vec) : Prop := fst p = fst q /\ Forall2 SV (snd p) (snd q).
  Lemma r_eval_pop m X : m <> Mpi -> rel' (eval_pop m X) (eval_pop m X) Evd.
  Proof.
    intro Hm. destruct m; [| |congruence].
    - eapply rel_bind; [apply r_eval_serial|]. intros u v Hu. apply rel_ret. split; [reflexivity|exact Hu].
    - eapply rel_bind; [|intros u v Hu; apply rel_ret; split; [reflexivity|exact Hu]].
      unfold eval_joblib. apply rel_bind with (Q := eq).
      + intros s1 s2 HR. split; [exact HR|]. cbn. destruct HR as [H _]. rewrite <- H. reflexivity.
      + intros o ? <-. apply r_fold, svs_refl.
  Qed.

  (** ** Selection: what is above the level is refused *)
  Lemma above_lt c f : Above b c -> nleb f b = true -> nltb c f = false.
  Proof.
    intros Hc Hf. destruct (nltb c f) eqn:Hl; [|reflexivity]. exfalso.
    apply ol_lt_le in Hl. unfold Above in Hc. rewrite (ol_le_trans _ _ _ Hl Hf) in Hc. discriminate.
  Qed.
  Lemma above_le c f : Above b c -> nleb f b = true -> nleb c f = false.
  Proof.
    intros Hc Hf. destruct (nleb c f) eqn:Hl; [|reflexivity]. exfalso.
    unfold Above in Hc. rewrite (ol_le_trans _ _ _ Hl Hf) in Hc. discriminate.
  Qed.
  Lemma good_below c f : nltb c f = true -> nleb f b = true -> nleb c b = true.
  Proof. intros H Hf. exact (ol_le_trans _ _ _ (ol_lt_le _ _ H) Hf). Qed.
  Lemma good_same (u v : vec) : Forall2 SV u v -> Forall Good u -> u = v.
  Proof.
    induction 1 as [|y y' u v Hy _ IH]; intro H; [reflexivity|]. inversion H as [|? ? Hg Hg']; subst.
    rewrite (IH Hg'). destruct Hy as [->|[Hy _]]; [reflexivity|]. unfold Above in Hy. congruence.
  Qed.

  Lemma r_sel_fun u v f : Forall2 SV u v -> Forall Good f -> sel_fun u f = sel_fun v f.
  Proof.
    unfold sel_fun. intro H. revert f. induction H as [|y y' u v Hy _ IH]; intros f Hf; destruct Hf as [|z f Hz Hf];
      cbn; try reflexivity. rewrite (IH f Hf). destruct Hy as [->|[Hy Hy']]; [reflexivity|].
    rewrite (above_lt y z Hy Hz), (above_lt y' z Hy' Hz). reflexivity.
  Qed.
  Lemma r_sel_x u v f : Forall2 SV u v -> Forall Good f -> forall c x, sel_x c u x f = sel_x c v x f.
  Proof.
    unfold sel_x. intro H. revert f. induction H as [|y y' u v Hy _ IH]; intros f Hf [|a c] [|w x]; destruct Hf as [|z f Hz Hf];
      cbn; try reflexivity. rewrite (IH f Hf). destruct Hy as [->|[Hy Hy']]; [reflexivity|].
    rewrite (above_lt y z Hy Hz), (above_lt y' z Hy' Hz). reflexivity.
  Qed.
  Lemma good_sel_fun u : forall f, Forall Good f -> Forall Good (sel_fun u f).
  Proof.
    unfold sel_fun. induction u as [|y u IH]; intros f Hf; destruct Hf as [|z f Hz Hf]; cbn; constructor; auto.
    destruct (nltb y z) eqn:Hl; [exact (good_below _ _ Hl Hz)|exact Hz].
  Qed.

  Definition Sel (x y : SelSync) : Prop :=
    ss_cand x = ss_cand y /\ ss_x x = ss_x y /\ ss_xfun x = ss_xfun y /\ ss_best x = ss_best y /\
    ss_bestfun x = ss_bestfun y /\ ss_status x = ss_status y /\ Forall Good (ss_xfun x).
  Lemma r_selection it c xb x xf mi xt ft m : m <> Mpi -> Forall Good xf ->
    rel' (selection_sync it c xb x xf mi xt ft (eval_pop m)) (selection_sync it c xb x xf mi xt ft (eval_pop m)) Sel.
  Proof.
    intros Hm HV. unfold selection_sync. eapply rel_bind; [apply r_eval_pop, Hm|].
    intros [c1 f1] [c2 f2] [H1 H2]. cbn in H1, H2. subst c2.
    rewrite <- (r_sel_fun f1 f2 xf H2 HV).
    eapply rel_bind; [apply rel_np_argmin|]. intros i ? <-. apply rel_ret.
    unfold sync_sel. rewrite <- (r_sel_fun f1 f2 xf H2 HV), <- (r_sel_x f1 f2 xf H2 HV).
    unfold Sel. cbn. repeat split; auto. apply good_sel_fun, HV.
  Qed.

  Definition SelA (x y : SelAsync) : Prop :=
    sa_x x = sa_x y /\ sa_xfun x = sa_xfun y /\ sa_best x = sa_best y /\ sa_bestfun x = sa_bestfun y /\
    sa_status x = sa_status y /\ Forall Good (sa_xfun x) /\ length (sa_xfun x) = length (sa_xfun y).
  Lemma good_upd i (y : T) v : nleb y b = true -> Forall Good v -> Forall Good (upd i y v).
  Proof. intros Hy H. revert i. induction H as [|a v Ha H IH]; intros [|i]; cbn; constructor; auto. Qed.
  Lemma r_selection_async c xb xbf x xf xt ft i : Forall Good xf -> i < length xf ->
    rel' (selection_async c xb xbf x xf xt ft i) (selection_async c xb xbf x xf xt ft i)
         (fun u v => SelA u v /\ length (sa_xfun u) = length xf).
  Proof.
    intros HV Hi. unfold selection_async. eapply rel_bind; [apply r_call_fun|]. intros y y' Hy. apply rel_ret.
    assert (Hz : nleb (nth i xf n0) b = true) by (rewrite Forall_forall in HV; apply HV, nth_In, Hi).
    unfold async_sel. destruct Hy as [<-|[Hy Hy']].
    - destruct (nleb y (nth i xf n0)) eqn:Hl.
      + pose proof (good_upd i y xf (ol_le_trans _ _ _ Hl Hz) HV) as HG.
        destruct (nleb y xbf); unfold SelA; cbn; rewrite ?upd_length; repeat split; auto.
      + unfold SelA. cbn. repeat split; auto.
    - rewrite (above_le y _ Hy Hz), (above_le y' _ Hy' Hz). unfold SelA. cbn. repeat split; auto.
  Qed.

  (** ** The loop *)
  Definition view {S} (d1 : @Drv N E S) (d2 : @Drv N E' S) (x y : S) : Prop :=
    d_pop d1 x = d_pop d2 y /\ d_x d1 x = d_x d2 y /\ d_fun d1 x = d_fun d2 y /\
    (forall it, d_nfev d1 it x = d_nfev d2 it y) /\ d_rec d1 x = d_rec d2 y.
  Lemma r_drive {S} (d1 : @Drv N E S) (d2 : @Drv N E' S) (K : S -> S -> Prop) cb :
    (forall it x y, K x y ->
       rel' (d_step d1 it x) (d_step d2 it y) (fun p q => K (fst p) (fst q) /\ snd p = snd q)) ->
    (forall it x y, K x y -> rel' (d_post d1 it x) (d_post d2 it y) K) ->
    (forall x y, K x y -> view d1 d2 x y) ->
    forall n it x y, K x y -> rel' (drive d1 cb n it x) (drive d2 cb n it y) eq.
  Proof.
    intros HS HP HV. induction n as [|n IH]; intros it x y HK; cbn; [apply rel_raise|].
    eapply rel_bind; [apply HS; exact HK|].
    intros [x' c] [y' c'] [HK' Hc]. cbn in *. subst c'.
    pose proof (HV _ _ HK') as (V1 & V2 & V3 & V4 & V5).
    apply rel_bind with (Q := eq).
    - rewrite <- V1. apply rel_when. unfold cb_state. rewrite <- V2, <- V3, <- V4, <- V5. apply r_call_cb.
    - intros _ _ _. destruct c as [c|].
      + unfold result. apply rel_bind with (Q := eq); [apply rel_orelse|]. intros m m' <-.
        apply rel_ret. rewrite V2, V3, V4, V5. reflexivity.
      + eapply rel_bind; [apply HP; exact HK'|]. intros u v Huv. apply IH, Huv.
  Qed.
  Lemma r_start {S} (d1 : @Drv N E S) (d2 : @Drv N E' S) cb it x y : view d1 d2 x y ->
    rel' (when cb (call_cb (d_pop d1 x) (cb_state d1 it x)))
         (when cb (call_cb (d_pop d2 y) (cb_state d2 it y))) eq.
  Proof.
    intros (V1 & V2 & V3 & V4 & V5). rewrite <- V1. apply rel_when.
    unfold cb_state. rewrite <- V2, <- V3, <- V4, <- V5. apply r_call_cb.
  Qed.
  Lemma r_foldM {A B} (K : A -> A -> Prop) (f1 : A -> B -> @M N E A) (f2 : A -> B -> @M N E' A) l :
    (forall x y c, In c l -> K x y -> rel' (f1 x c) (f2 y c) K) ->
    forall x y, K x y -> rel' (foldM f1 x l) (foldM f2 y l) K.
  Proof.
    induction l as [|z l IH]; intros H x y HK; cbn [foldM]; [apply rel_ret; exact HK|].
    eapply rel_bind; [apply H; [left; reflexivity | exact HK]|]. intros u v HK'.
    apply IH; [|exact HK']. intros. apply H; [right|]; assumption.
  Qed.
  Lemma r_rec_none mi it pop pop' pf pf' best best' (r r' : option Rec) :
    rel' (rec_write None mi it pop pf best r) (rec_write None mi it pop' pf' best' r') (fun u v => u = None /\ v = None).
  Proof. apply rel_ret. auto. Qed.

  (** ** The initial population *)
  (** the first [p] values are at most [b] *)
  Definition Fine (p : nat) (t : list event) : Prop :=
    Forall (fun xy => nleb (snd xy) b = true) (firstn p (evals t)).
  Definition relf (p : nat) {A B} (m1 : @M N E A) (m2 : @M N E' B) (Q : A -> B -> Prop) : Prop :=
    forall s1 s2, R0 s1 s2 -> Fine p (tr (snd (m1 s1))) ->
      RG (snd (m1 s1)) (snd (m2 s2)) /\
      match fst (m1 s1), fst (m2 s2) with
      | inl a, inl c => Q a c
      | inr e, inr e' => e = e'
      | _, _ => False
      end.
  Lemma relf_bind p {A B A' B'} (m1 : @M N E A) (m2 : @M N E' B) (k1 : A -> @M N E A') (k2 : B -> @M N E' B') Q Q' :
    rel0 m1 m2 Q -> (forall a c, Q a c -> relf p (k1 a) (k2 c) Q') -> relf p (bind m1 k1) (bind m2 k2) Q'.
  Proof.
    intros H Hk s1 s2 HR HF1. unfold bind in *. specialize (H s1 s2 HR).
    destruct (m1 s1) as [[a|e] t1], (m2 s2) as [[c|e'] t2]; cbn in H; destruct H as [HR' H]; try contradiction.
    - apply Hk; auto.
    - subst. split; cbn; [apply HR'|reflexivity].
  Qed.
  Lemma relf_eval p m X {A B} (k1 : matrix * vec -> @M N E A) (k2 : matrix * vec -> @M N E' B) Q :
    m <> Mpi -> length X = p -> (forall a, disc (k1 a)) ->
    (forall f, length f = p -> Forall Good f -> rel' (k1 (X, f)) (k2 (X, f)) Q) ->
    relf p (bind (eval_pop m X) k1) (bind (eval_pop m X) k2) Q.
  Proof.
    intros Hm HX HD Hk s1 s2 [HR Ht] HFi. pose proof (r_eval_pop m X Hm s1 s2 HR) as H. unfold bind in *.
    assert (HW : wp (@eval_pop N E m X) (fun r s' => fst r = X /\ length (snd r) = p /\
              exists l, tr s' = tr s1 ++ map ok l /\ Permutation l (combine X (snd r))) (fun _ _ => True) s1).
    { apply wp_eval_pop.
      - destruct m; cbn; auto. congruence.
      - intros X' f s' evs Hl _ Ht' _ _ _ HEv _. destruct (HEv Hm) as [-> (l & -> & Hp & _)].
        split; [reflexivity|]. split; [cbn; rewrite Hl; exact HX|]. exists l. auto.
      - auto. }
    unfold wp in HW.
    destruct (@eval_pop N E m X s1) as [[[X1 f1]|e] t1] eqn:E1, (@eval_pop N E' m X s2) as [[[X2 f2]|e'] t2] eqn:E2;
      cbn in H; destruct H as [HR' H]; try contradiction.
    - cbn in HW. destruct HW as (HX1 & Hlf & l & Htl & Hp). subst X1. destruct H as [H1 H2]. cbn in H1, H2. subst X2.
      assert (HG : Forall Good f1).
      { destruct (HD (X, f1) t1) as (evs & He & _). assert (HFj : Fine p (tr t1 ++ evs)) by (rewrite <- He; exact HFi). clear HFi. rename HFj into HFi. unfold Fine in HFi. rewrite Htl, Ht in HFi. cbn [app] in HFi.
        rewrite evals_app, evals_ok in HFi.
        assert (Hll : length l = p).
        { rewrite (Permutation_length Hp), combine_length. vl. }
        rewrite firstn_app, Hll, Nat.sub_diag, <- Hll, firstn_all in HFi. cbn [firstn] in HFi. rewrite app_nil_r in HFi.
        assert (Hall : Forall (fun xy => nleb (snd xy) b = true) (combine X f1)).
        { eapply Permutation_Forall; [exact Hp|exact HFi]. }
        clear -Hall Hlf HX. revert f1 p Hall Hlf HX. induction X as [|x X IH]; intros [|y f1] p Hall Hlf HX; cbn in *; try (now constructor).
        - subst p. discriminate.
        - inversion Hall; subst. constructor; [assumption|]. apply (IH f1 (length X)); [assumption|injection HX as HX; symmetry; exact HX|reflexivity]. }
      rewrite <- (good_same _ _ H2 HG). apply Hk; assumption.
    - subst. split; cbn; [exact HR'|reflexivity].
  Qed.

  (** ** DE *)
  Definition KDe (p : nat) (x y : DES) : Prop :=
    des_X x = des_X y /\ des_gbest x = des_gbest y /\ des_pbestfit x = des_pbestfit y /\
    des_gfit x = des_gfit y /\ des_rec x = None /\ des_rec y = None /\
    Forall Good (des_pbestfit x) /\ (p = 0 \/ length (des_pbestfit x) = p).

  Lemma r_delete_shuffle p i : rel' (delete_shuffle p i) (delete_shuffle p i) eq.
  Proof. eapply rel_bind; [apply r_perm, moves_RG|]. intros x ? <-. apply rel_ret. reflexivity. Qed.
  Lemma r_np_randint n : rel' (np_randint n) (np_randint n) eq.
  Proof. destruct n; [apply rel_raise | apply r_randint, moves_RG]. Qed.
  Lemma r_de_cons c l u x : rel' (de_cons c l u x) (de_cons c l u x) eq.
  Proof.
    destruct c; [apply rel_ret; reflexivity|].
    eapply rel_bind; [apply r_uniform_vec, moves_RG|]. intros r ? <-. apply rel_ret. reflexivity.
  Qed.
  Lemma r_de_cands P r X gb : rel' (de_cands P r X gb) (de_cands P r X gb) eq.
  Proof.
    unfold de_cands.
    eapply rel_bind; [apply rel_mapM; intros; apply r_delete_shuffle|]. intros x ? <-.
    eapply rel_bind; [apply rel_mapM; intros; apply rel_orelse|]. intros y ? <-.
    eapply rel_bind; [apply rel_replicateM, r_np_randint|]. intros c ? <-.
    apply rel_mapM. intros. apply r_de_cons.
  Qed.
  Lemma r_de_cand1 P r i X gb : rel' (de_cand1 P r i X gb) (de_cand1 P r i X gb) eq.
  Proof.
    eapply rel_bind; [apply r_delete_shuffle|]. intros x ? <-.
    eapply rel_bind; [apply rel_orelse|]. intros y ? <-.
    eapply rel_bind; [apply r_np_randint|]. intros c ? <-. apply r_de_cons.
  Qed.

  Lemma r_de_step P (sync : bool) it x y : de_mode P <> Mpi -> de_nout P = None ->
    KDe (if sync then 0 else de_p P) x y ->
    rel' (de_step P sync it x) (de_step P sync it y)
         (fun p q => KDe (if sync then 0 else de_p P) (fst p) (fst q) /\ snd p = snd q).
  Proof.
    intros HM Hno HK. unfold de_step.
    eapply rel_bind; [apply r_rand_mat, moves_RG|]. intros r1 ? <-.
    eapply rel_bind; [apply rel_raise_if|]. intros _ _ _.
    apply rel_bind with
      (Q := fun p q : DES * option Z => KDe (if sync then 0 else de_p P) (fst p) (fst q) /\ snd p = snd q).
    - destruct sync.
      + unfold de_sync. destruct HK as (K1 & K2 & K3 & K4 & K5 & K6 & K7 & K8).
        rewrite <- K1, <- K2, <- K3.
        eapply rel_bind; [apply r_de_cands|]. intros U ? <-.
        eapply rel_bind; [apply r_selection; [exact HM | exact K7]|].
        intros s1 s2 (S1 & S2 & S3 & S4 & S5 & S6 & S7).
        unfold set_alias. rewrite <- S2.
        eapply rel_bind; [apply rel_when, r_set_arg, moves_RG|]. intros _ _ _.
        apply rel_ret. unfold KDe. cbn. repeat split; auto.
      + unfold de_async. eapply rel_bind.
        * apply r_foldM with
            (K := fun p q : DES * option Z => KDe (de_p P) (fst p) (fst q) /\ snd p = snd q);
            [|split; [exact HK | reflexivity]].
          intros [s1 c1] [s2 c2] i Hi [HK' _]. cbn [fst] in HK'. unfold de_async_one. cbn [fst].
          destruct HK' as (K1 & K2 & K3 & K4 & K5 & K6 & K7 & K8). rewrite <- K1, <- K2, <- K3, <- K4.
          eapply rel_bind; [apply r_de_cand1|]. intros u ? <-. apply in_seq in Hi.
          eapply rel_bind; [apply r_selection_async; [exact K7 | destruct K8; vl]|].
          intros t1 t2 ((S1 & S2 & S3 & S4 & S5 & S6 & S7) & SL).
          unfold set_alias. rewrite <- S1.
          eapply rel_bind; [apply rel_when, r_set_arg, moves_RG|]. intros _ _ _.
          apply rel_ret. unfold KDe. cbn. repeat split; auto. destruct K8 as [K8|K8]; [left; exact K8|right; congruence].
        * intros [s1 c1] [s2 c2] [HK' Hc]. cbn in Hc. subst c2. apply rel_ret. split; [exact HK'|].
          reflexivity.
    - intros [s1 c1] [s2 c2] [HK' Hc]. cbn in Hc. subst c2. cbn [fst] in HK'.
      destruct HK' as (K1 & K2 & K3 & K4 & K5 & K6 & K7 & K8). cbv beta iota. rewrite Hno.
      eapply rel_bind; [apply r_rec_none|]. intros r r' [-> ->].
      apply rel_ret. unfold KDe. cbn. repeat split; auto.
  Qed.

  Lemma r_alloc_none v p mi : rel' (rec_alloc false v p mi) (rec_alloc false v p mi) (fun u w => u = None /\ w = None).
  Proof. apply rel_ret. auto. Qed.

  Lemma r_de a sync F CR st : a_backend a <> Some "mpi"%string -> a_return_all a = false -> Checked a ->
    relf (Z.to_nat (a_popsize a)) (de a sync F CR st) (de a sync F CR st) eq.
  Proof.
    intros HB HA HC. unfold de.
    eapply relf_bind; [apply r_eval_kind, HB|]. intros m ? [<- Hm].
    eapply relf_bind; [apply rel_unpack|]. intros [l u] ? <-.
    eapply relf_bind; [apply rel_orelse|]. intros con ? <-. cbn zeta.
    eapply relf_bind; [apply r_pop0; [apply moves_R0|apply HC]|]. intros X ? [<- HX].
    eapply relf_bind; [apply rel_raise_if|]. intros _ _ _.
    apply relf_eval; [exact Hm|exact HX| |].
    { intros [X1 pf]. d1. apply disc_drive; intros; cbn [d_step d_post de_drv]; [apply disc_de_step|d1]. }
    intros pf Hpf HG.
    eapply rel_bind; [apply rel_when, r_set_arg, moves_RG|]. intros _ _ _.
    eapply rel_bind; [apply rel_np_argmin|]. intros gb ? <-.
    rewrite HA. eapply rel_bind; [apply r_alloc_none|]. intros nout ? [-> ->].
    eapply rel_bind; [apply r_rec_none|]. intros r ? [-> ->].
    set (P := mkDEParams F CR st con _ _ _ _ _ _ _ m None _ _).
    set (s0 := mkDES X _ pf _ _ _).
    assert (HK : KDe (if sync then 0 else de_p P) s0 s0).
    { unfold KDe, s0. cbn. repeat split; auto. destruct sync; [left; reflexivity|right; exact Hpf]. }
    assert (HV : forall p s t, KDe p s t -> view (de_drv P sync) (de_drv P sync) s t).
    { intros p s t (K1 & K2 & K3 & K4 & K5 & K6 & K7 & K8). repeat split; cbn; auto. congruence. }
    eapply rel_bind; [apply r_start; apply (HV _ _ _ HK)|]. intros _ _ _.
    apply (r_drive _ _ (KDe (if sync then 0 else de_p P))); auto.
    - intros it s t HK'. apply r_de_step; auto.
    - intros it s t HK'. apply rel_ret. exact HK'.
    - intros s t. apply HV.
  Qed.

  Lemma r_de_minimize A : a_backend (dea A) <> Some "mpi"%string -> a_return_all (dea A) = false ->
    relf (Z.to_nat (a_popsize (dea A))) (de_minimize A) (de_minimize A) eq.
  Proof.
    intros HB HA. unfold de_minimize.
    eapply relf_bind; [apply r_check_pop|]. intros ? ? HC. cbv beta in HC.
    eapply relf_bind; [apply rel_raise_if|]. intros _ _ _.
    eapply relf_bind; [apply rel_raise_if|]. intros _ _ _.
    eapply relf_bind; [apply rel_check_updating|]. intros _ _ _.
    eapply relf_bind; [apply rel_orelse|]. intros st ? <-.
    eapply relf_bind; [apply r_seed_and_cb, moves_R0|]. intros _ _ _.
    apply r_de; assumption.
  Qed.

  (** ** CPSO and PSO *)
  Definition KPso (p : nat) (x y : PSOS) : Prop :=
    pss_X x = pss_X y /\ pss_V x = pss_V y /\ pss_pbest x = pss_pbest y /\
    pss_gbest x = pss_gbest y /\ pss_pbestfit x = pss_pbestfit y /\ pss_gfit x = pss_gfit y /\
    pss_rec x = None /\ pss_rec y = None /\
    Forall Good (pss_pbestfit x) /\ (p = 0 \/ length (pss_pbestfit x) = p).

  Lemma r_pso_step P (sync : bool) it x y : ps_mode P <> Mpi -> ps_nout P = None ->
    KPso (if sync then 0 else ps_p P) x y ->
    rel' (pso_step P sync it x) (pso_step P sync it y)
         (fun p q => KPso (if sync then 0 else ps_p P) (fst p) (fst q) /\ snd p = snd q).
  Proof.
    intros HM Hno HK. unfold pso_step.
    eapply rel_bind; [apply r_rand_mat, moves_RG|]. intros r1 ? <-.
    eapply rel_bind; [apply r_rand_mat, moves_RG|]. intros r2 ? <-.
    apply rel_bind with
      (Q := fun p q : PSOS * option Z => KPso (if sync then 0 else ps_p P) (fst p) (fst q) /\ snd p = snd q).
    - destruct sync.
      + unfold pso_sync. eapply rel_bind; [apply rel_raise_if|]. intros _ _ _. cbn zeta.
        destruct HK as (K1 & K2 & K3 & K4 & K5 & K6 & K7 & K8 & K9 & K10).
        assert (HMV : pso_moves P r1 r2 y = pso_moves P r1 r2 x).
        { unfold pso_moves. rewrite <- K1, <- K2, <- K3, <- K4. reflexivity. }
        rewrite HMV, <- K3, <- K4, <- K5.
        eapply rel_bind; [apply r_selection; [exact HM | exact K9]|].
        intros s1 s2 (S1 & S2 & S3 & S4 & S5 & S6 & S7).
        apply rel_ret. unfold KPso. cbn. repeat split; auto.
      + unfold pso_async. eapply rel_bind.
        * apply r_foldM with
            (K := fun p q : PSOS * option Z => KPso (ps_p P) (fst p) (fst q) /\ snd p = snd q);
            [|split; [exact HK | reflexivity]].
          intros [s1 c1] [s2 c2] i Hi [HK' _]. cbn [fst] in HK'. unfold pso_async_one. cbn [fst]. cbn zeta.
          destruct HK' as (K1 & K2 & K3 & K4 & K5 & K6 & K7 & K8 & K9 & K10).
          rewrite <- K1, <- K2, <- K3, <- K4, <- K5, <- K6.
          set (xv := pso_mutation P _ _ _ _ _ _). apply in_seq in Hi.
          eapply rel_bind; [apply rel_when, r_set_arg, moves_RG|]. intros _ _ _.
          eapply rel_bind; [apply r_selection_async; [exact K9 | destruct K10; vl]|].
          intros t1 t2 ((S1 & S2 & S3 & S4 & S5 & S6 & S7) & SL).
          apply rel_ret. unfold KPso. cbn. repeat split; auto. destruct K10 as [K10|K10]; [left; exact K10|right; congruence].
        * intros [s1 c1] [s2 c2] [HK' Hc]. cbn in Hc. subst c2. apply rel_ret. split; [exact HK'|].
          reflexivity.
    - intros [s1 c1] [s2 c2] [HK' Hc]. cbn in Hc. subst c2. cbn [fst] in HK'.
      destruct HK' as (K1 & K2 & K3 & K4 & K5 & K6 & K7 & K8 & K9 & K10). cbv beta iota. rewrite Hno.
      eapply rel_bind; [apply r_rec_none|]. intros r r' [-> ->].
      apply rel_ret. unfold KPso. cbn. repeat split; auto.
  Qed.

  Lemma upd_many_len idx : forall (rows v : vec), length (upd_many idx rows v) = length v.
  Proof.
    induction idx as [|i idx IH]; intros [|r rows] v; cbn [upd_many]; try reflexivity.
    rewrite IH, upd_length. reflexivity.
  Qed.
  Lemma good_upd_many idx : forall rows v, Forall Good rows -> Forall Good v -> Forall Good (upd_many idx rows v).
  Proof.
    induction idx as [|i idx IH]; intros [|r rows] v Hr Hv; cbn [upd_many]; try assumption.
    inversion Hr; subst. apply IH; [assumption|]. apply good_upd; assumption.
  Qed.

  Lemma r_pso_post P p it x y : ps_gamma P = None \/ nleb (nlit 1 30) b = true -> KPso p x y ->
    rel' (pso_post P it x) (pso_post P it y) (KPso p).
  Proof.
    intros HM HK. unfold pso_post.
    destruct (ps_gamma P) as [gm|]; [|apply rel_ret; exact HK].
    destruct HM as [HM|HM]; [discriminate|].
    pose proof HK as (K1 & K2 & K3 & K4 & K5 & K6 & K7 & K8 & K9 & K10).
    unfold restart. rewrite <- K1, <- K4, <- K5, <- K2, <- K3.
    destruct (nltb (swarm_radius _ _ _) _); [|apply rel_ret; exact HK].
    eapply rel_bind; [apply rel_raise_if|]. intros _ _ _.
    eapply rel_bind; [apply rel_orelse|]. intros nw ? <-.
    destruct (0 <? nw)%Z; [|apply rel_ret; exact HK]. cbn zeta.
    change (@worst N E') with (@worst N E).
    eapply rel_bind; [apply r_uniform_mat, moves_RG|]. intros rows ? <-.
    unfold pso_set_alias.
    eapply rel_bind; [apply rel_when, r_set_arg, moves_RG|]. intros _ _ _.
    apply rel_ret. unfold KPso. cbn. repeat split; auto.
    - apply good_upd_many; [|exact K9]. apply Forall_forall. intros z Hz. apply repeat_spec in Hz.
      rewrite Hz. exact HM.
    - destruct K10 as [K10|K10]; [left; exact K10|right]. rewrite upd_many_len. exact K10.
  Qed.

  (** the markers of a restart, 1e30, are not above the level either *)
  Definition Markers (gamma : option T) : Prop := truthy gamma = None \/ nleb (nlit 1 30) b = true.

  Lemma r_cpso a sync iw c1 c2 gm : a_backend a <> Some "mpi"%string -> a_return_all a = false -> Checked a ->
    Markers gm ->
    relf (Z.to_nat (a_popsize a)) (cpso a sync iw c1 c2 gm) (cpso a sync iw c1 c2 gm) eq.
  Proof.
    intros HB HA HC HMK. unfold cpso.
    eapply relf_bind; [apply r_eval_kind, HB|]. intros m ? [<- Hm].
    eapply relf_bind; [apply rel_unpack|]. intros [l u] ? <-.
    eapply relf_bind; [apply rel_orelse|]. intros con ? <-. cbn zeta.
    eapply relf_bind; [apply r_pop0; [apply moves_R0|apply HC]|]. intros X ? [<- HX].
    eapply relf_bind; [apply rel_raise_if|]. intros _ _ _.
    apply relf_eval; [exact Hm|exact HX| |].
    { intros [X1 pf]. d1. apply disc_drive; intros; cbn [d_step d_post pso_drv]; [apply disc_pso_step|apply disc_pso_post]. }
    intros pf Hpf HG.
    eapply rel_bind; [apply rel_when, r_set_arg, moves_RG|]. intros _ _ _.
    eapply rel_bind; [apply rel_np_argmin|]. intros gb ? <-.
    rewrite HA. eapply rel_bind; [apply r_alloc_none|]. intros nout ? [-> ->].
    eapply rel_bind; [apply r_rec_none|]. intros r ? [-> ->].
    set (P := mkPSOParams iw c1 c2 con _ _ _ _ _ _ _ _ _ m None _ _).
    set (s0 := mkPSOS X _ _ _ pf _ _ _).
    assert (HK : KPso (if sync then 0 else ps_p P) s0 s0).
    { unfold KPso, s0. cbn. repeat split; auto. destruct sync; [left; reflexivity|right; exact Hpf]. }
    assert (HV : forall p s t, KPso p s t -> view (pso_drv P sync) (pso_drv P sync) s t).
    { intros p s t (K1 & K2 & K3 & K4 & K5 & K6 & K7 & K8 & K9 & K10). repeat split; cbn; auto. congruence. }
    eapply rel_bind; [apply r_start; apply (HV _ _ _ HK)|]. intros _ _ _.
    apply (r_drive _ _ (KPso (if sync then 0 else ps_p P))); auto.
    - intros it s t HK'. apply r_pso_step; auto.
    - intros it s t HK'. apply r_pso_post; auto.
    - intros s t. apply HV.
  Qed.
  Lemma r_cpso_minimize A : a_backend (pa A) <> Some "mpi"%string -> a_return_all (pa A) = false ->
    Markers (pa_competitivity A) ->
    relf (Z.to_nat (a_popsize (pa A))) (cpso_minimize A) (cpso_minimize A) eq.
  Proof.
    intros HB HA HMK. unfold cpso_minimize.
    eapply relf_bind; [apply r_check_pop|]. intros ? ? HC. cbv beta in HC.
    do 4 (eapply relf_bind; [apply rel_raise_if|]; intros _ _ _).
    eapply relf_bind; [apply rel_check_updating|]. intros _ _ _.
    eapply relf_bind; [apply r_seed_and_cb, moves_R0|]. intros _ _ _.
    apply r_cpso; assumption.
  Qed.

  (** ** The claim *)
  Lemma relf_exec p {A} (m1 : @M N E A) (m2 : @M N E' A) w a0 r s :
    relf p m1 m2 eq -> @exec N E _ m1 w a0 = (r, s) -> Fine p (tr s) ->
    exists s', @exec N E' _ m2 w a0 = (r, s') /\ rs s' = rs s /\ argbuf s' = argbuf s /\
               Forall2 (SameCall b) (tr s) (tr s').
  Proof.
    intros H Hx Hf. unfold exec in *.
    specialize (H (@mkSt N E w [] a0) (@mkSt N E' w [] a0)).
    change (@RNG N E') with (@RNG N E) in *. change (@US N E') with (@US N E) in *.
    rewrite Hx in H. cbn [fst snd] in H.
    destruct H as [(H1 & H2 & H3) H4]; [split; [|reflexivity]; unfold RG; cbn; auto|exact Hf|].
    exists (snd (m2 (@mkSt N E' w [] a0))). split; [|auto].
    destruct (m2 (@mkSt N E' w [] a0)) as [[x|e] s']; cbn in *; destruct r as [y|e']; try contradiction; subst; reflexivity.
  Qed.

  Theorem C78_de A w a0 r s : a_backend (dea A) <> Some "mpi"%string -> a_return_all (dea A) = false ->
    @exec N E _ (de_minimize A) w a0 = (r, s) ->
    Forall (fun xy => nleb (snd xy) b = true) (firstn (Z.to_nat (a_popsize (dea A))) (evals (tr s))) ->
    exists s', @exec N E' _ (de_minimize A) w a0 = (r, s') /\ rs s' = rs s /\ argbuf s' = argbuf s /\
               Forall2 (SameCall b) (tr s) (tr s').
  Proof. intros H1 H2. apply relf_exec, r_de_minimize; assumption. Qed.
  Theorem C78_cpso A w a0 r s : a_backend (pa A) <> Some "mpi"%string -> a_return_all (pa A) = false ->
    truthy (pa_competitivity A) = None \/ nleb (nlit 1 30) b = true ->
    @exec N E _ (cpso_minimize A) w a0 = (r, s) ->
    Forall (fun xy => nleb (snd xy) b = true) (firstn (Z.to_nat (a_popsize (pa A))) (evals (tr s))) ->
    exists s', @exec N E' _ (cpso_minimize A) w a0 = (r, s') /\ rs s' = rs s /\ argbuf s' = argbuf s /\
               Forall2 (SameCall b) (tr s) (tr s').
  Proof. intros H1 H2 H3. apply relf_exec, r_cpso_minimize; assumption. Qed.
  Theorem C78_pso A w a0 r s : a_backend (psa A) <> Some "mpi"%string -> a_return_all (psa A) = false ->
    @exec N E _ (pso_minimize A) w a0 = (r, s) ->
    Forall (fun xy => nleb (snd xy) b = true) (firstn (Z.to_nat (a_popsize (psa A))) (evals (tr s))) ->
    exists s', @exec N E' _ (pso_minimize A) w a0 = (r, s') /\ rs s' = rs s /\ argbuf s' = argbuf s /\
               Forall2 (SameCall b) (tr s) (tr s').
  Proof.
    intros H1 H2. apply relf_exec.
    apply (r_cpso_minimize (mkCPSOArgs (psa A) (psa_inertia A) (psa_cognitivity A) (psa_sociability A) None (psa_updating A)));
      [exact H1|exact H2|left; reflexivity].
  Qed.
End Refuse.
