(** What user code gets to see, in every execution: a logic for predicates on the points handed to
    the objective and to the callback.  It also covers executions that end in an exception. *)
From Coq Require Import Permutation.
From Verif Require Import Base Num Env Common Hoare EvalRules Gen Inst Laws.

Section Safe.
  Context {N : Num} {E : Env N}.
  (** [Pe]: evaluated points; [Pc]: arguments of an optimizer's callback. *)
  Context (Pe : vec -> Prop) (Pc : matrix -> CbState -> Prop).

  Definition shown (e : event) : Prop :=
    match e with EEval x _ => Pe x | ECb X st _ => Pc X st | _ => True end.

  Definition safe {A} (m : M A) (Q : A -> Prop) : Prop :=
    forall s, exists evs, tr (snd (m s)) = tr s ++ evs /\ Forall shown evs /\
      (forall a, fst (m s) = inl a -> Q a).

  Lemma safe_ret {A} (a : A) (Q : A -> Prop) : Q a -> safe (ret a) Q.
  Proof.
    intros H s. exists []. cbn. rewrite app_nil_r. split; [reflexivity|]. split; [constructor|].
    intros b Hb; injection Hb as <-; exact H.
  Qed.

  Lemma safe_raise {A} e (Q : A -> Prop) : safe (raise e) Q.
  Proof.
    intros s. exists []. cbn. rewrite app_nil_r. split; [reflexivity|]. split; [constructor|]. discriminate.
  Qed.

  Lemma safe_bind {A B} (m : M A) (k : A -> M B) (R : A -> Prop) (Q : B -> Prop) :
    safe m R -> (forall a, R a -> safe (k a) Q) -> safe (bind m k) Q.
  Proof.
    intros Hm Hk s. unfold bind. destruct (Hm s) as (e1 & He1 & H1 & G1).
    destruct (m s) as [[a|x] s1]; cbn in *.
    - destruct (Hk a (G1 a eq_refl) s1) as (e2 & He2 & H2 & G2). exists (e1 ++ e2).
      rewrite He2, He1, app_assoc. split; [reflexivity|]. split; [apply Forall_app; auto|exact G2].
    - exists e1. split; [exact He1|]. split; [exact H1|discriminate].
  Qed.

  Lemma safe_conseq {A} (m : M A) (Q R : A -> Prop) :
    safe m Q -> (forall a, Q a -> R a) -> safe m R.
  Proof. intros H HR s. destruct (H s) as (e & A1 & A2 & A3). exists e; eauto. Qed.

  Lemma safe_draw {A} (f : RNG -> A * RNG) (Q : A -> Prop) :
    (forall r, Q (fst (f r))) -> safe (draw f) Q.
  Proof.
    intros H s. exists []. unfold draw. specialize (H (fst (rs s))).
    destruct (f (fst (rs s))); cbn in *. rewrite app_nil_r. split; [reflexivity|]. split; [constructor|].
    intros b Hb; injection Hb as <-; exact H.
  Qed.

  Lemma safe_call_fun x (Q : T -> Prop) : Pe x -> (forall y, Q y) -> safe (call_fun x) Q.
  Proof.
    intros H HQ s. unfold call_fun. destruct (e_fun x (rs s)) as [r w]; cbn.
    exists [EEval x r]. split; [reflexivity|]. split; [constructor; [exact H|constructor]|auto].
  Qed.

  Lemma safe_call_cb X st (Q : unit -> Prop) : Pc X st -> Q tt -> safe (call_cb X st) Q.
  Proof.
    intros H HQ s. unfold call_cb. destruct (e_cb X st (rs s)) as [r w]; cbn.
    exists [ECb X st r]. split; [reflexivity|]. split; [constructor; [exact H|constructor]|].
    intros [] _; exact HQ.
  Qed.

  Lemma safe_set_arg m (Q : unit -> Prop) : Q tt -> safe (set_arg m) Q.
  Proof.
    intros H s. exists []. cbn. rewrite app_nil_r. split; [reflexivity|]. split; [constructor|].
    intros [] _; exact H.
  Qed.

  Lemma safe_seed o (Q : unit -> Prop) : Q tt -> safe (seed o) Q.
  Proof.
    intros H s. exists []. destruct o; cbn; rewrite app_nil_r; (split; [reflexivity|]);
      (split; [constructor|]); intros [] _; exact H.
  Qed.

  Lemma safe_when b m (Q : unit -> Prop) : (b = true -> safe m Q) -> Q tt -> safe (when b m) Q.
  Proof. intros H1 H2. destruct b; cbn; [auto|apply safe_ret; auto]. Qed.

  Lemma safe_orelse {A} (o : option A) e (Q : A -> Prop) :
    (forall a, o = Some a -> Q a) -> safe (orelse o e) Q.
  Proof. intros H. destruct o; cbn; [apply safe_ret; auto|apply safe_raise]. Qed.

  Lemma safe_raise_if b e (Q : unit -> Prop) : (b = false -> Q tt) -> safe (raise_if b e) Q.
  Proof. intros H. destruct b; cbn; [apply safe_raise|apply safe_ret; auto]. Qed.

  Lemma safe_replicateM {A} n (m : M A) (Q : A -> Prop) :
    safe m Q -> safe (replicateM n m) (fun l => length l = n /\ Forall Q l).
  Proof.
    intros H. induction n as [|n IH]; cbn; [apply safe_ret; split; [reflexivity|constructor]|].
    eapply safe_bind; [exact H|]. intros a Ha. eapply safe_bind; [exact IH|]. intros l [Hl Hf].
    apply safe_ret. cbn. split; [congruence|constructor; assumption].
  Qed.

  Lemma safe_mapM {A B} (f : A -> M B) (l : list A) (R : A -> B -> Prop) :
    (forall a, In a l -> safe (f a) (R a)) -> safe (mapM f l) (Forall2 R l).
  Proof.
    induction l as [|a l IH]; intros H; cbn; [apply safe_ret; constructor|].
    eapply safe_bind; [apply H; left; reflexivity|]. intros b Hb.
    eapply safe_bind; [apply IH; intros; apply H; right; assumption|]. intros bs Hbs.
    apply safe_ret. constructor; assumption.
  Qed.

  Lemma safe_foldM {A B} (f : A -> B -> M A) (Inv : A -> Prop) (l : list B) a :
    Inv a -> (forall a b, In b l -> Inv a -> safe (f a b) Inv) -> safe (foldM f a l) Inv.
  Proof.
    revert a. induction l as [|b l IH]; intros a Ha H; cbn; [apply safe_ret; exact Ha|].
    eapply safe_bind; [apply H; [left; reflexivity|exact Ha]|]. intros a' Ha'.
    apply IH; [exact Ha'|]. intros; apply H; [right; assumption|assumption].
  Qed.

  (** The Bcast of MPI delivers what rank 0 holds: rank 0 runs the same program, its points satisfy
      the same predicate. *)
  Definition BcastKeeps (P : vec -> Prop) : Prop :=
    forall n X, Forall P X -> Forall P (e_bcast n X).
  Definition ModeKeeps (P : vec -> Prop) (m : Mode) : Prop :=
    ModeOK m /\ (m = Mpi -> BcastKeeps P).

  Lemma Forall_nth_lt {A} (P : A -> Prop) l d i : Forall P l -> i < length l -> P (nth i l d).
  Proof. intros H Hi. rewrite Forall_forall in H. apply H, nth_In, Hi. Qed.

  Lemma safe_eval_pop P m X (HM : ModeKeeps P m) :
    (forall x, P x -> Pe x) -> Forall P X ->
    safe (eval_pop m X) (fun Xf => Forall P (fst Xf) /\ length (fst Xf) = length X /\
                                   length (snd Xf) = length X /\ (m <> Mpi -> fst Xf = X)).
  Proof.
    intros HP HX. destruct HM as [HM HB]. destruct m; cbn in *.
    - eapply safe_bind.
      + apply (safe_mapM _ _ (fun _ _ => True)). intros x Hx. apply safe_call_fun; auto.
        rewrite Forall_forall in HX. auto.
      + intros f Hf. apply safe_ret. cbn. apply Forall2_length in Hf. auto.
    - eapply safe_bind.
      + instantiate (1 := fun f => length f = length X). unfold eval_joblib.
        eapply safe_bind.
        * intros s. exists []. cbn. rewrite app_nil_r. split; [reflexivity|]. split; [constructor|].
          intros a Ha. injection Ha as <-. instantiate (1 := fun o => forall i, In i o -> i < length X).
          cbn. intros i Hi. eapply Permutation_in in Hi; [|apply HM]. apply in_seq in Hi. lia.
        * intros order Ho. apply safe_foldM; [apply repeat_length|]. intros f i Hi Hf.
          eapply safe_bind; [apply safe_call_fun; [apply HP, Forall_nth_lt; auto|intros; exact I]|].
          intros y _. apply safe_ret. rewrite upd_length. exact Hf.
      + intros f Hf. apply safe_ret. cbn. auto.
    - unfold eval_mpi. specialize (HB eq_refl).
      assert (HL : forall n, length (e_bcast n X) = length X).
      { intros n. pose proof (f_equal (@length _) (proj1 HM n X)) as H. rewrite !map_length in H. exact H. }
      eapply safe_bind.
      + instantiate (1 := fun X' => Forall P X' /\ length X' = length X).
        intros s. exists [EBcast (e_bcast (nbcast (tr s)) X)]. cbn. split; [reflexivity|].
        split; [repeat constructor|]. intros a Ha. injection Ha as <-. auto.
      + intros X' [HX' HL']. eapply safe_bind.
        * apply (safe_foldM _ (fun f => length f = length X')); [apply repeat_length|].
          intros f i Hi Hf. apply arange_lt in Hi.
          eapply safe_bind; [apply safe_call_fun; [apply HP, Forall_nth_lt; auto|intros; exact I]|].
          intros y _. apply safe_ret. rewrite upd_length. exact Hf.
        * intros fm Hfm. eapply safe_bind.
          -- instantiate (1 := fun f => length f = length X).
             intros s. eexists. cbn. split; [reflexivity|]. split; [repeat constructor|].
             intros a Ha. injection Ha as <-. rewrite (proj2 HM). congruence.
          -- intros f Hf. apply safe_ret. cbn. split; [exact HX'|]. split; [exact HL'|]. split; [exact Hf|congruence].
  Qed.

  Lemma safe_np_argmin v : safe (np_argmin v) (fun i => i = argmin v /\ v <> []).
  Proof. destruct v; cbn; [apply safe_raise|apply safe_ret; split; congruence]. Qed.

  Lemma safe_rec_write no mx it pop pfit best r : safe (rec_write no mx it pop pfit best r) (fun _ => True).
  Proof.
    unfold rec_write, rec_put. destruct no as [n|]; [|apply safe_ret; exact I].
    destruct r as [r|]; [|apply safe_ret; exact I].
    eapply safe_bind; [|intros; apply safe_ret; exact I].
    destruct (_ <? _)%Z; [apply safe_raise|]. instantiate (1 := fun _ => True). destruct (_ <? _)%Z.
    - eapply safe_bind; [apply (safe_orelse _ _ (fun _ => True)); intros; exact I|]. intros rows _.
      eapply safe_bind; [apply (safe_orelse _ _ (fun _ => True)); intros; exact I|]. intros fs _.
      apply safe_ret; exact I.
    - apply safe_ret; exact I.
  Qed.

  Lemma safe_rec_alloc b v p mx : safe (rec_alloc b v p mx) (fun _ => True).
  Proof.
    unfold rec_alloc, rec_nout. destruct b; [|apply safe_ret; exact I].
    eapply safe_bind; [apply (safe_orelse _ _ (fun _ => True)); intros; exact I|]. intros n _.
    destruct (_ <? _)%Z; [apply safe_raise|apply safe_ret; exact I].
  Qed.


  Lemma safe_rand (HE : EnvOK) : safe rand (fun u => nleb n0 u = true /\ nltb u n1 = true).
  Proof. apply safe_draw. intros r. apply (eo_rand HE). Qed.

  (** [np.random.uniform] between bounds that obey [UniformLaw] *)
  Lemma safe_uniform (HE : EnvOK) lo hi : UniformLaw lo hi ->
    safe (uniform lo hi) (fun v => nleb lo v = true /\ nleb v hi = true).
  Proof.
    intros H. unfold uniform. eapply safe_bind; [apply safe_rand, HE|]. intros u [H0 H1].
    apply safe_ret. apply H; assumption.
  Qed.

  Lemma safe_urange lo hi : safe (urange lo hi) (fun _ => True).
  Proof. unfold urange. destruct (frange _ _); [apply safe_ret; exact I|apply safe_raise]. Qed.
  Lemma safe_uniform1 (HE : EnvOK) lo hi : UniformLaw lo hi ->
    safe (uniform1 lo hi) (fun v => nleb lo v = true /\ nleb v hi = true).
  Proof. intros H. eapply safe_bind; [apply safe_urange|]. intros; apply safe_uniform; assumption. Qed.
  Lemma safe_uniform_row (HE : EnvOK) lower upper : Forall2 UniformLaw lower upper ->
    safe (uniform_row lower upper)
      (Forall2 (fun b v => nleb (fst b) v = true /\ nleb v (snd b) = true) (combine lower upper)).
  Proof.
    intros H. unfold uniform_row. apply safe_mapM. intros [l u] Hb. apply safe_uniform; [exact HE|]. cbn.
    revert Hb. induction H; cbn; [tauto|]. intros [Hb|Hb]; [injection Hb as <- <-; assumption|auto].
  Qed.

  Lemma safe_uniform_vec (HE : EnvOK) lower upper : Forall2 UniformLaw lower upper ->
    safe (uniform_vec lower upper)
      (Forall2 (fun b v => nleb (fst b) v = true /\ nleb v (snd b) = true) (combine lower upper)).
  Proof. intros H. eapply safe_bind; [apply safe_urange|]. intros; apply safe_uniform_row; assumption. Qed.

  Lemma safe_rand_mat (HE : EnvOK) p d :
    safe (rand_mat p d) (fun m => length m = p /\
      Forall (fun r => length r = d /\ Forall (fun u => nleb n0 u = true /\ nltb u n1 = true) r) m).
  Proof. apply safe_replicateM, safe_replicateM, safe_rand, HE. Qed.

  Lemma safe_drive {S} (d : Drv S) (Inv : S -> Prop) cb fuel :
    (forall it s, Inv s -> safe (d_step d it s) (fun r => Inv (fst r))) ->
    (forall it s, Inv s -> safe (d_post d it s) Inv) ->
    (forall it s, Inv s -> cb = true -> Pc (d_pop d s) (cb_state d it s)) ->
    forall it s, Inv s ->
    safe (drive d cb fuel it s)
         (fun r => exists s, Inv s /\ r_x r = d_x d s /\ r_fun r = d_fun d s /\ r_all r = d_rec d s).
  Proof.
    intros Hs Hp Hc. induction fuel as [|k IH]; intros it s HI; cbn [drive]; [apply safe_raise|].
    eapply safe_bind; [apply Hs, HI|]. intros [s1 st] HI1; cbn in HI1.
    eapply safe_bind.
    - apply safe_when with (Q := fun _ => True); [|exact I]. intros Hb. apply safe_call_cb; [apply Hc; assumption|exact I].
    - intros _ _. destruct st as [c|].
      + unfold result. eapply safe_bind; [apply (safe_orelse _ _ (fun _ => True)); intros; exact I|]. intros msg _.
        apply safe_ret. exists s1. cbn. auto.
      + eapply safe_bind; [apply Hp, HI1|]. intros s2 HI2. apply IH, HI2.
  Qed.
End Safe.

Lemma filter_le {A} f (l : list A) : length (filter f l) <= length l.
Proof. induction l as [|a l IH]; cbn; [lia|]. destruct (f a); cbn; lia. Qed.

(** Points evaluated after the first [n] calls of the objective. *)
Section Late.
  Context {N : Num} {E : Env N}.
  Context (Pe : vec -> Prop) (Pc : matrix -> CbState -> Prop).

  Definition few (n : nat) {A} (m : M A) (Q : A -> Prop) : Prop :=
    forall s, exists evs, tr (snd (m s)) = tr s ++ evs /\ ncalls evs <= n /\
      (forall a, fst (m s) = inl a -> Q a).

  Definition late (n : nat) {A} (m : M A) (Q : A -> Prop) : Prop :=
    forall s, exists e1 e2, tr (snd (m s)) = tr s ++ e1 ++ e2 /\ ncalls e1 <= n /\
      Forall (shown Pe Pc) e2 /\ (forall a, fst (m s) = inl a -> Q a).

  Lemma no_calls Pd evs : Forall (shown (fun _ => False) Pd) evs -> ncalls evs = 0.
  Proof.
    induction evs as [|e l IH]; intros H; [reflexivity|].
    pose proof (Forall_inv H) as He. apply Forall_inv_tail in H. apply IH in H.
    destruct e; cbn in *; tauto.
  Qed.

  Lemma late_first {A B} n (m : M A) (k : A -> M B) R Q :
    few n m R -> (forall a, R a -> safe Pe Pc (k a) Q) -> late n (bind m k) Q.
  Proof.
    intros Hm Hk s. unfold bind. destruct (Hm s) as (e1 & He1 & H1 & G1).
    destruct (m s) as [[a|x] s1]; cbn in *.
    - destruct (Hk a (G1 a eq_refl) s1) as (e2 & He2 & H2 & G2). exists e1, e2.
      rewrite He2, He1, app_assoc. auto.
    - exists e1, []. rewrite app_nil_r. repeat split; auto. discriminate.
  Qed.

  Lemma late_skip {A B} n Pd (m : M A) (k : A -> M B) R Q :
    safe (fun _ => False) Pd m R -> (forall a, R a -> late n (k a) Q) -> late n (bind m k) Q.
  Proof.
    intros Hm Hk s. unfold bind. destruct (Hm s) as (e0 & He0 & H0 & G0). apply no_calls in H0.
    destruct (m s) as [[a|x] s1]; cbn in *.
    - destruct (Hk a (G0 a eq_refl) s1) as (e1 & e2 & He & H1 & H2 & G2). exists (e0 ++ e1), e2.
      rewrite He, He0, !app_assoc, ncalls_app, H0. auto.
    - exists e0, []. rewrite app_nil_r, H0. repeat split; auto; [lia|discriminate].
  Qed.

  Lemma few_ret {A} n (a : A) (Q : A -> Prop) : Q a -> few n (ret a) Q.
  Proof.
    intros H s. exists []. cbn. rewrite app_nil_r. split; [reflexivity|]. split; [lia|].
    intros b Hb; injection Hb as <-; exact H.
  Qed.
  Lemma few_bind {A B} n1 n2 (m : M A) (k : A -> M B) R Q :
    forall n, n1 + n2 <= n -> few n1 m R -> (forall a, R a -> few n2 (k a) Q) -> few n (bind m k) Q.
  Proof.
    intros n Hn Hm Hk s. unfold bind. destruct (Hm s) as (e1 & He1 & H1 & G1).
    destruct (m s) as [[a|x] s1]; cbn in *.
    - destruct (Hk a (G1 a eq_refl) s1) as (e2 & He2 & H2 & G2). exists (e1 ++ e2).
      rewrite He2, He1, app_assoc, ncalls_app. split; [reflexivity|]. split; [lia|exact G2].
    - exists e1. split; [exact He1|]. split; [lia|discriminate].
  Qed.
  Lemma few_call x : few 1 (call_fun x) (fun _ => True).
  Proof.
    intros s. unfold call_fun. destruct (e_fun x (rs s)) as [r w]; cbn.
    exists [EEval x r]. split; [reflexivity|]. split; [cbn; lia|auto].
  Qed.

  (** the calls of a [mapM] or [foldM] of one call each *)
  Lemma few_mapM X : few (length X) (mapM call_fun X) (fun f => length f = length X).
  Proof.
    induction X as [|x X IH]; cbn; [apply few_ret; reflexivity|].
    apply (few_bind 1 (length X) _ _ (fun _ => True)); [lia|apply few_call|]. intros y _.
    eapply (few_bind (length X) 0); [lia|apply IH|]. intros l Hl. apply few_ret. cbn. congruence.
  Qed.

  Lemma few_foldM (X : matrix) (l : list nat) f0 :
    few (length l) (foldM (fun f i => y <- call_fun (nth i X []) ;; ret (upd i y f)) f0 l)
        (fun f => length f = length f0).
  Proof.
    revert f0. induction l as [|i l IH]; intros f0; cbn; [apply few_ret; reflexivity|].
    eapply (few_bind 1 (length l)); [lia| |].
    - eapply (few_bind 1 0); [lia|apply few_call|]. intros y _. apply few_ret.
      instantiate (1 := fun f => length f = length f0). apply upd_length.
    - intros f Hf. intros s. destruct (IH f s) as (e & He & Hn & G). exists e. split; [exact He|].
      split; [exact Hn|]. intros a Ha. rewrite (G a Ha). exact Hf.
  Qed.

  Lemma few_eval_pop m X (P : vec -> Prop) : ModeKeeps P m -> Forall P X ->
    few (length X) (eval_pop m X) (fun Xf => Forall P (fst Xf) /\ length (fst Xf) = length X /\
                                             length (snd Xf) = length X).
  Proof.
    intros [HM HB] HX. destruct m; cbn in *.
    - eapply (few_bind (length X) 0); [lia|apply few_mapM|]. intros f Hf. apply few_ret; cbn; auto.
    - eapply (few_bind (length X) 0); [lia| |intros f Hf; apply few_ret; cbn; split; [exact HX|split; [reflexivity|exact Hf]]].
      unfold eval_joblib. eapply (few_bind 0 (length X)); [lia| |].
      + intros s. exists []. cbn. rewrite app_nil_r. split; [reflexivity|]. split; [lia|].
        intros a Ha; injection Ha as <-. instantiate (1 := fun o => length o = length X). cbn.
        rewrite (Permutation_length (HM _ _)). apply seq_length.
      + intros o Ho s. cbv beta in Ho.
        destruct (few_foldM X o (repeat n0 (length X)) s) as (e & He & Hn & G).
        exists e. split; [exact He|]. split; [rewrite <- Ho; exact Hn|]. intros a Ha.
        rewrite (G a Ha). apply repeat_length.
    - specialize (HB eq_refl). unfold eval_mpi. eapply (few_bind 0 (length X)); [lia| |].
      + instantiate (1 := fun X' => Forall P X' /\ length X' = length X).
        intros s. eexists. split; [reflexivity|]. split; [cbn; lia|]. intros a Ha. injection Ha as <-.
        split; [apply HB, HX|].
        pose proof (f_equal (@length _) (proj1 HM (nbcast (tr s)) X)) as H. rewrite !map_length in H. exact H.
      + intros X' [HX' HL]. eapply (few_bind (length X) 0); [lia| |].
        * intros s. set (l := arange e_rank (length X') e_mpisize).
          assert (Hl : length l <= length X).
          { unfold l, arange. rewrite <- HL. eapply Nat.le_trans; [apply filter_le|]. rewrite seq_length; lia. }
          destruct (few_foldM X' l (repeat n0 (length X')) s) as (e & He & Hn & G).
          exists e. split; [exact He|]. split; [lia|]. exact G.
        * intros fm Hfm. cbv beta in Hfm. rewrite repeat_length in Hfm. eapply (few_bind 0 0); [lia| |].
          -- instantiate (1 := fun f => length f = length X). intros s. eexists.
             split; [reflexivity|]. split; [cbn; lia|]. intros a Ha. injection Ha as <-.
             rewrite (proj2 HM). congruence.
          -- intros f Hf. apply few_ret. cbn. auto.
  Qed.
End Late.
