(** C56: a valid call of de, cpso, pso or na raises no exception of its own.  The only exceptions
    that can leave the call are those of the user's functions. *)
From Coq Require Import Permutation.
From Verif Require Import Base Num Env Common DE CPSO NA Hoare EvalRules Gen Inst Disc Valid Accept
  Enough Runs PropPop.

Section Calm.
  Context {N : Num} {E : Env N}.

  (** The objective or the callback raises exception [n] on some input. *)
  Definition user_raises (n : nat) : Prop :=
    (exists x w w', e_fun x w = (inr n, w')) \/ (exists X st w w', e_cb X st w = (Some n, w')).
  (** Not raised by the library (OutOfFuel is an artefact of the model, C01 rules it out). *)
  Definition foreign (e : Exn) : Prop := (exists n, e = UserError n /\ user_raises n) \/ e = OutOfFuel.

  (** [extra] are exceptions that are allowed besides the foreign ones. *)
  Context {extra : Exn -> Prop}.
  Definition calm {A} (m : M A) (Q : A -> Prop) : Prop :=
    forall s, match fst (m s) with inl a => Q a | inr e => foreign e \/ extra e end.

  Lemma calm_ret {A} (a : A) (Q : A -> Prop) : Q a -> calm (ret a) Q.
  Proof. intros H s. exact H. Qed.
  Lemma calm_bind {A B} (m : M A) (k : A -> M B) (R : A -> Prop) (Q : B -> Prop) :
    calm m R -> (forall a, R a -> calm (k a) Q) -> calm (bind m k) Q.
  Proof.
    intros Hm Hk s. specialize (Hm s). unfold bind. destruct (m s) as [[a|e] s1]; cbn in *; [|exact Hm].
    apply Hk, Hm.
  Qed.
  Lemma calm_conseq {A} (m : M A) (Q R : A -> Prop) : calm m Q -> (forall a, Q a -> R a) -> calm m R.
  Proof. intros H HR s. specialize (H s). destruct (m s) as [[a|e] s1]; cbn in *; auto. Qed.
  Lemma calm_both {A} (m : M A) (Q R : A -> Prop) : calm m Q -> calm m R -> calm m (fun a => Q a /\ R a).
  Proof. intros H1 H2 s. specialize (H1 s). specialize (H2 s). destruct (fst (m s)); auto. Qed.
  Lemma calm_draw {A} (f : RNG -> A * RNG) (Q : A -> Prop) : (forall r, Q (fst (f r))) -> calm (draw f) Q.
  Proof. intros H s. unfold draw. specialize (H (fst (rs s))). destruct (f (fst (rs s))); exact H. Qed.
  Lemma calm_silent {A} (m : M A) (Q : A -> Prop) : silent m Q -> calm m Q.
  Proof. intros H s. destruct (H s) as (a & s' & H1 & _ & H2). rewrite H1. exact H2. Qed.
  Lemma calm_fun x : calm (call_fun x) (fun _ => True).
  Proof.
    intros s. unfold call_fun. destruct (e_fun x (rs s)) as [[y|n] w] eqn:He; cbn; [exact I|left; left].
    exists n. split; [reflexivity|left; eauto].
  Qed.
  Lemma calm_cb X st : calm (call_cb X st) (fun _ => True).
  Proof.
    intros s. unfold call_cb. destruct (e_cb X st (rs s)) as [[n|] w] eqn:He; cbn; [left; left|exact I].
    exists n. split; [reflexivity|right; eauto].
  Qed.
  Lemma calm_when b (m : M unit) : calm m (fun _ => True) -> calm (when b m) (fun _ => True).
  Proof. intros H. destruct b; cbn; [exact H|apply calm_ret; exact I]. Qed.
  Lemma calm_set_arg X : calm (set_arg X) (fun _ => True).
  Proof. intros s. exact I. Qed.
  Lemma calm_if b e : b = false -> calm (raise_if b e) (fun _ => True).
  Proof. intros ->. apply calm_ret; exact I. Qed.
  Lemma calm_orelse {A} (o : option A) e a : o = Some a -> calm (orelse o e) (fun b => b = a).
  Proof. intros ->. apply calm_ret; reflexivity. Qed.
  Lemma calm_orelse_def {A} (o : option A) e : o <> None -> calm (orelse o e) (fun b => o = Some b).
  Proof. intros H. destruct o; [apply calm_ret; reflexivity|congruence]. Qed.

  Lemma calm_replicateM {A} n (m : M A) (Q : A -> Prop) :
    calm m Q -> calm (replicateM n m) (fun l => length l = n /\ Forall Q l).
  Proof.
    intros H. induction n as [|n IH]; cbn; [apply calm_ret; split; [reflexivity|constructor]|].
    eapply calm_bind; [exact H|]. intros a Ha. eapply calm_bind; [exact IH|]. intros l [Hl Hf].
    apply calm_ret. cbn. split; [congruence|constructor; assumption].
  Qed.
  Lemma calm_mapM {A B} (f : A -> M B) (l : list A) (Q : B -> Prop) :
    (forall a, In a l -> calm (f a) Q) -> calm (mapM f l) (fun r => length r = length l /\ Forall Q r).
  Proof.
    induction l as [|a l IH]; intros H; cbn; [apply calm_ret; split; [reflexivity|constructor]|].
    eapply calm_bind; [apply H; left; reflexivity|]. intros b Hb.
    eapply calm_bind; [apply IH; intros; apply H; right; assumption|]. intros bs [Hl Hbs].
    apply calm_ret. cbn. split; [congruence|constructor; assumption].
  Qed.
  Lemma calm_foldM {A B} (f : A -> B -> M A) (Inv : A -> Prop) (l : list B) a :
    Inv a -> (forall a b, In b l -> Inv a -> calm (f a b) Inv) -> calm (foldM f a l) Inv.
  Proof.
    revert a. induction l as [|b l IH]; intros a Ha H; cbn; [apply calm_ret; exact Ha|].
    eapply calm_bind; [apply H; [left; reflexivity|exact Ha]|]. intros a' Ha'.
    apply IH; [exact Ha'|]. intros; apply H; [right; assumption|assumption].
  Qed.

  Lemma calm_rand_mat p d : calm (rand_mat p d) (fun m => length m = p).
  Proof.
    unfold rand_mat. eapply calm_conseq; [apply (calm_replicateM _ _ (fun _ => True))|intros a [H _]; exact H].
    eapply calm_conseq; [apply (calm_replicateM _ _ (fun _ => True)), calm_draw; auto|auto].
  Qed.
  Lemma calm_uniform lo hi : calm (uniform lo hi) (fun _ => True).
  Proof.
    unfold uniform. eapply calm_bind; [apply (calm_draw _ (fun _ => True)); auto|]. intros; apply calm_ret; exact I.
  Qed.
  Lemma calm_urange lo hi : frange lo hi = true \/ extra OverflowError -> calm (urange lo hi) (fun _ => True).
  Proof.
    intros H s. unfold urange. destruct (frange lo hi); [exact I|]. right. destruct H; [discriminate|assumption].
  Qed.
  Lemma calm_uniform_row lo hi : calm (uniform_row lo hi) (fun _ => True).
  Proof.
    unfold uniform_row. eapply calm_conseq; [apply (calm_mapM _ _ (fun _ => True)); intros; apply calm_uniform|auto].
  Qed.
  Lemma calm_uniform_vec lo hi : frange lo hi = true -> calm (uniform_vec lo hi) (fun _ => True).
  Proof. intros H. eapply calm_bind; [apply calm_urange; auto|]. intros _ _. apply calm_uniform_row. Qed.
  Lemma calm_argmin v : v <> [] -> calm (np_argmin v) (fun _ => True).
  Proof. intros H. destruct v; [congruence|]. apply calm_ret; exact I. Qed.

  Lemma calm_spread (X : matrix) (l : list nat) (f0 : vec) :
    calm (foldM (fun f i => y <- call_fun (nth i X []) ;; ret (upd i y f)) f0 l) (fun f => length f = length f0).
  Proof.
    apply calm_foldM; [reflexivity|]. intros f i _ Hf. eapply calm_bind; [apply calm_fun|].
    intros y _. apply calm_ret. rewrite upd_length. exact Hf.
  Qed.
  Lemma calm_eval_pop m X : ModeOK m ->
    calm (eval_pop m X) (fun Xf => length (fst Xf) = length X /\ length (snd Xf) = length X).
  Proof.
    intros HM. destruct m; cbn [eval_pop ModeOK] in *.
    - unfold eval_serial. eapply calm_bind; [apply (calm_mapM _ _ (fun _ => True)); intros; apply calm_fun|].
      intros f [Hf _]. apply calm_ret. cbn. auto.
    - eapply calm_bind; [|intros f Hf; apply calm_ret; cbn; split; [reflexivity|exact Hf]].
      unfold eval_joblib. eapply (calm_bind _ _ (fun _ => True)); [intros s; exact I|]. intros o _.
      eapply calm_conseq; [apply calm_spread|]. intros f ->. apply repeat_length.
    - destruct HM as [HB HR]. unfold eval_mpi. eapply (calm_bind _ _ (fun X' => length X' = length X)).
      { intros s. cbn. pose proof (f_equal (@length nat) (HB (nbcast (tr s)) X)) as H. rewrite !map_length in H. exact H. }
      intros X' HX'. eapply calm_bind; [apply calm_spread|]. intros f Hf. rewrite repeat_length in Hf.
      eapply (calm_bind _ _ (fun g : vec => length g = length X')).
      { intros s. cbn. rewrite HR. exact Hf. }
      intros g Hg. apply calm_ret. cbn. split; congruence.
  Qed.

  Lemma calm_eval_kindM s w b : calm (eval_kindM s w b) (fun m => eval_kind s w b = inl m).
  Proof.
    unfold eval_kindM. destruct (C23_no_backend_error s w b) as (m & -> & _). apply calm_ret. reflexivity.
  Qed.

  (** ** Selection *)
  Lemma sel_fun_length a b : length a = length b -> length (@sel_fun N a b) = length b.
  Proof. intros H. unfold sel_fun. rewrite map2_length. lia. Qed.
  Lemma sel_x_length c cf x xf : length c = length cf -> length cf = length xf -> length x = length xf ->
    length (@sel_x N c cf x xf) = length x.
  Proof. intros H1 H2 H3. unfold sel_x. rewrite map2_length, !combine_length. lia. Qed.

  Definition known (it mx : Z) (o : option Z) : Prop :=
    match o with Some c => message c <> None | None => (it < mx)%Z end.
  Lemma known_sync it mx xt ft xb xi fi : known it mx (sync_status it mx xt ft xb xi fi).
  Proof.
    unfold sync_status. destruct (_ && _); [cbn; discriminate|]. destruct (nleb _ _); [cbn; discriminate|].
    destruct (Z.leb_spec mx it); cbn; [discriminate|assumption].
  Qed.
  Lemma known_async c cf xb xbf x xf xt ft i st : sa_status (async_sel c cf xb xbf x xf xt ft i) = Some st ->
    message st <> None.
  Proof.
    unfold async_sel. repeat match goal with |- context [if ?b then _ else _] => destruct b end; cbn;
      intros H; inversion H; discriminate.
  Qed.

  Lemma calm_selection p it cand xb x xf mx xt ft ev :
    calm (ev cand) (fun Xf => length (fst Xf) = p /\ length (snd Xf) = p) ->
    length xf = p -> length x = p -> (1 <= p)%nat ->
    calm (selection_sync it cand xb x xf mx xt ft ev)
      (fun s => length (ss_cand s) = p /\ length (ss_x s) = p /\ length (ss_xfun s) = p /\
                length (ss_candfun s) = p /\ known it mx (ss_status s)).
  Proof.
    intros He Hf Hx Hp. unfold selection_sync. eapply calm_bind; [exact He|]. intros [c f] [H1 H2]. cbn in H1, H2.
    assert (HL : length (sel_fun f xf) = p) by (rewrite sel_fun_length; congruence).
    eapply calm_bind; [apply calm_argmin; intros H; rewrite H in HL; cbn in HL; lia|]. intros _ _.
    apply calm_ret. unfold sync_sel. cbn. repeat split; auto.
    - rewrite sel_x_length; congruence.
    - apply known_sync.
  Qed.

  Lemma calm_async c xb xbf x xf xt ft i :
    calm (selection_async c xb xbf x xf xt ft i)
      (fun s => length (sa_x s) = length x /\ length (sa_xfun s) = length xf /\
                forall st, sa_status s = Some st -> message st <> None).
  Proof.
    unfold selection_async. eapply calm_bind; [apply calm_fun|]. intros y _. apply calm_ret.
    split; [|split].
    1,2: unfold async_sel; repeat match goal with |- context [if ?b then _ else _] => destruct b end; cbn;
      rewrite ?upd_length; reflexivity.
    intros st. apply known_async.
  Qed.

  (** ** Recording *)
  (** The slots have room: at least two generations run, and no more rows than individuals. *)
  Definition room (p : nat) (mx : Z) (no : option Z) : Prop :=
    match no with Some n => (n <= Z.of_nat p)%Z /\ (2 <= mx)%Z | None => True end.
  Lemma fit_firstn {A} n (l : list A) : (n <= length l)%nat -> fit_rows n (firstn n l) = Some (firstn n l).
  Proof. intros H. unfold fit_rows. rewrite firstn_length_le, Nat.eqb_refl by exact H. reflexivity. Qed.
  Lemma calm_rec_write p mx no it pop pfit best r : room p mx no -> (it <= Z.max 2 mx)%Z ->
    length pop = p -> length pfit = p -> calm (rec_write no mx it pop pfit best r) (fun _ => True).
  Proof.
    intros Hr Hi Hp Hf. unfold rec_write. destruct no as [n|], r as [r|]; try (apply calm_ret; exact I).
    destruct Hr as [Hn Hm]. eapply (calm_bind _ _ (fun _ => True)); [|intros; apply calm_ret; exact I].
    unfold rec_put. destruct (Z.ltb_spec mx it); [lia|]. destruct (Z.ltb_spec 0 n); [|apply calm_ret; exact I].
    rewrite !fit_firstn by lia. apply calm_ret. exact I.
  Qed.

  (** What [return_all] asks for. *)
  Definition RecOK (a : Args) : Prop := a_return_all a = true ->
    (2 <= a_maxiter a)%Z /\ exists n, nceilZ (nmul (a_verbosity a) (nZ (a_popsize a))) = Some n /\ (n <= a_popsize a)%Z.

  Lemma calm_rec_alloc a : RecOK a -> (0 <= a_popsize a)%Z ->
    calm (rec_alloc (a_return_all a) (a_verbosity a) (a_popsize a) (a_maxiter a))
         (room (Z.to_nat (a_popsize a)) (a_maxiter a)).
  Proof.
    intros H Hp. unfold rec_alloc. destruct (a_return_all a) eqn:Hr; [|apply calm_ret; exact I].
    destruct (H Hr) as (Hm & n & Hn & Hle). unfold rec_nout. rewrite Hn.
    eapply calm_bind; [apply (calm_ret n (fun k => k = n) eq_refl)|]. intros k ->.
    destruct (Z.ltb_spec (a_maxiter a) 0); [lia|]. apply calm_ret. cbn. lia.
  Qed.

  (** ** The main loop *)
  Lemma calm_drive {S} (d : Drv S) (Inv : S -> Prop) mx cb :
    (forall it s, (2 <= it <= Z.max 2 mx)%Z -> Inv s ->
       calm (d_step d it s) (fun r => Inv (fst r) /\ known it mx (snd r))) ->
    (forall it s, (2 <= it < mx)%Z -> Inv s -> calm (d_post d it s) Inv) ->
    forall fuel it s, (1 <= it < Z.max 2 mx)%Z -> Inv s -> calm (drive d cb fuel it s) (fun _ => True).
  Proof.
    intros H1 H2. induction fuel as [|k IH]; intros it s Hi Hs; cbn [drive].
    { intros st. left. right. reflexivity. }
    eapply calm_bind; [apply H1; [lia|exact Hs]|]. intros [s' o] [Hs' Ho]. cbn [fst snd] in *.
    eapply calm_bind; [apply calm_when, calm_cb|]. intros _ _. destruct o as [c|]; cbn [known] in Ho.
    - unfold result. destruct (message c) as [msg|]; [|congruence].
      eapply calm_bind; [apply (calm_ret msg (fun _ => True) I)|]. intros; apply calm_ret; exact I.
    - eapply calm_bind; [apply H2; [lia|exact Hs']|]. intros s'' Hs''. apply IH; [lia|exact Hs''].
  Qed.

  (** ** de *)
  Section De.
    Context (P : DEParams) (HE : EnvOK) (Hm : ModeOK (de_mode P)) (Hp : (1 <= de_p P)%nat) (Hd : (1 <= de_d P)%nat)
      (Hl : de_list P = false) (Hn : (needs_of (de_strat P) <= de_p P - 1)%nat)
      (Hr : room (de_p P) (de_maxiter P) (de_nout P))
      (Hu : de_con P = DERandom -> frange (de_lower P) (de_upper P) = true).

    Definition DI (s : DES) : Prop :=
      length (des_X s) = de_p P /\ length (des_pbestfit s) = de_p P /\ length (des_pfit s) = de_p P.

    Lemma mutate_some st is F X gb : (needs_of st <= length is)%nat -> exists v, @mutate N st is F X gb = Some v.
    Proof.
      destruct st; cbn [needs_of]; intros H; unfold mutate, pick;
        destruct is as [|i0 [|i1 [|i2 [|i3 [|i4 is]]]]]; cbn in *; try lia; eexists; reflexivity.
    Qed.
    Lemma calm_shuffle i : calm (delete_shuffle (de_p P) i) (fun is => length is = (de_p P - 1)%nat).
    Proof.
      unfold delete_shuffle. eapply calm_bind.
      - apply (calm_draw _ (fun l : list nat => length l = (de_p P - 1)%nat)). intros r.
        rewrite (Permutation_length (eo_perm HE _ r)), seq_length. reflexivity.
      - intros pi Hpi. apply calm_ret. rewrite map_length. exact Hpi.
    Qed.
    Lemma calm_mutate is X gb : length is = (de_p P - 1)%nat ->
      calm (orelse (mutate (de_strat P) is (de_F P) X gb) IndexError) (fun _ => True).
    Proof.
      intros H. destruct (mutate_some (de_strat P) is (de_F P) X gb) as [v ->]; [lia|]. apply calm_ret; exact I.
    Qed.
    Lemma calm_randint : calm (np_randint (de_d P)) (fun _ => True).
    Proof. destruct (de_d P); [lia|]. cbn. apply calm_draw. auto. Qed.
    Lemma calm_de_cons u : calm (de_cons (de_con P) (de_lower P) (de_upper P) u) (fun _ => True).
    Proof.
      destruct (de_con P) eqn:Hc; cbn; [apply calm_ret; exact I|]. eapply calm_bind; [apply calm_uniform_vec, Hu; reflexivity|].
      intros; apply calm_ret; exact I.
    Qed.

    Lemma calm_cands r1 X gb : length r1 = de_p P -> length X = de_p P ->
      calm (de_cands P r1 X gb) (fun U => length U = de_p P).
    Proof.
      intros H1 HX. unfold de_cands. eapply calm_bind; [apply calm_mapM; intros; apply calm_shuffle|].
      intros iss [HL HF]. rewrite seq_length in HL.
      eapply calm_bind.
      { apply (calm_mapM _ _ (fun _ => True)). intros is His. apply calm_mutate.
        rewrite Forall_forall in HF. apply HF, His. }
      intros V [HV _]. eapply calm_bind; [apply (calm_replicateM _ _ _ calm_randint)|]. intros ir [Hir _].
      eapply calm_conseq; [apply (calm_mapM _ _ (fun _ => True)); intros; apply calm_de_cons|].
      intros U [HU _]. rewrite HU, map3_length, combine_length. lia.
    Qed.

    Lemma calm_de_step sync it s : (2 <= it <= Z.max 2 (de_maxiter P))%Z -> DI s ->
      calm (de_step P sync it s) (fun r => DI (fst r) /\ known it (de_maxiter P) (snd r)).
    Proof.
      intros Hit Hs. unfold de_step. eapply calm_bind; [apply calm_rand_mat|]. intros r1 Hr1.
      eapply calm_bind; [apply calm_if, Hl|]. intros _ _.
      eapply (calm_bind _ _ (fun r => DI (fst r) /\ known it (de_maxiter P) (snd r))).
      - destruct sync.
        + destruct Hs as (HX & Hf & _). unfold de_sync. eapply calm_bind; [apply calm_cands; assumption|].
          intros U HU. eapply calm_bind.
          { apply (calm_selection (de_p P)); auto. rewrite <- HU. apply calm_eval_pop, Hm. }
          intros sel (S1 & S2 & S3 & S4 & S5). eapply calm_bind; [apply calm_when, calm_set_arg|]. intros _ _.
          apply calm_ret. cbn. repeat split; auto.
        + unfold de_async. eapply (calm_bind _ _ (fun r => DI (fst r) /\ forall c, snd r = Some c -> message c <> None)).
          * apply calm_foldM; [split; [exact Hs|discriminate]|]. clear s Hs.
            intros [s o] i _ [(HX & Hf & Hpf) _]. cbn [fst snd] in *. unfold de_async_one. cbn zeta.
            eapply (calm_bind _ _ (fun _ => True)).
            { unfold de_cand1. eapply calm_bind; [apply calm_shuffle|]. intros is His.
              eapply calm_bind; [apply calm_mutate, His|]. intros v _.
              eapply calm_bind; [apply calm_randint|]. intros ir _. apply calm_de_cons. }
            intros u _. eapply calm_bind; [apply calm_async|]. intros sel (S1 & S2 & S3).
            eapply calm_bind; [apply calm_when, calm_set_arg|]. intros _ _. apply calm_ret.
            unfold DI. cbn. rewrite upd_length, S1, S2. auto.
          * intros [s' o] [Hs' Ho]. cbn [fst snd] in *. apply calm_ret. cbn [fst snd]. split; [exact Hs'|].
            destruct o as [c|]; [apply Ho; reflexivity|].
            destruct (Z.leb_spec (de_maxiter P) it); cbn; [discriminate|assumption].
      - intros [s' o] [(HX & Hf & Hpf) Ho]. cbn [fst snd] in *.
        eapply calm_bind; [apply (calm_rec_write (de_p P)); [exact Hr|lia|exact HX|exact Hpf]|].
        intros r _. apply calm_ret. cbn. repeat split; auto.
    Qed.
  End De.

  (** ** cpso *)
  Section Pso.
    Context (P : PSOParams) (Hm : ModeOK (ps_mode P)) (Hp : (1 <= ps_p P)%nat) (Hl : ps_list P = false)
      (Hr : room (ps_p P) (ps_maxiter P) (ps_nout P))
      (Hg : forall g it, ps_gamma P = Some g -> (2 <= it < ps_maxiter P)%Z ->
              restart_count (ps_p P) it (ps_maxiter P) g <> None)
      (Hu : ps_gamma P <> None -> frange (ps_lower P) (ps_upper P) = true).

    Definition PI (s : PSOS) : Prop :=
      length (pss_X s) = ps_p P /\ length (pss_V s) = ps_p P /\ length (pss_pbest s) = ps_p P /\
      length (pss_pbestfit s) = ps_p P /\ length (pss_pfit s) = ps_p P.

    Lemma upd_many_len {A} idx rows (l : list A) : length (upd_many idx rows l) = length l.
    Proof. revert rows l. induction idx as [|i idx IH]; intros [|r rows] l; cbn; auto. rewrite IH, upd_length. reflexivity. Qed.

    Lemma calm_restart g it s : ps_gamma P = Some g -> (2 <= it < ps_maxiter P)%Z -> PI s ->
      calm (restart P g it s) PI.
    Proof.
      intros HG Hit Hs. unfold restart. destruct (nltb _ _); [|apply calm_ret; exact Hs].
      eapply calm_bind; [apply calm_if, Z.eqb_neq; lia|]. intros _ _.
      eapply calm_bind; [apply calm_orelse_def, Hg; assumption|]. intros nw _.
      destruct (0 <? nw)%Z; [|apply calm_ret; exact Hs]. cbn zeta. eapply (calm_bind _ _ (fun _ => True)).
      { unfold uniform_mat. eapply calm_bind; [apply calm_urange; left; apply Hu; congruence|]. intros _ _.
        eapply calm_conseq; [apply (calm_replicateM _ _ (fun _ => True)), calm_uniform_row|auto]. }
      intros rows _. eapply calm_bind; [apply calm_when, calm_set_arg|]. intros _ _.
      apply calm_ret. destruct Hs as (H1 & H2 & H3 & H4 & H5). unfold PI. cbn. rewrite !upd_many_len. auto.
    Qed.
    Lemma calm_pso_post it s : (2 <= it < ps_maxiter P)%Z -> PI s -> calm (pso_post P it s) PI.
    Proof.
      intros Hit Hs. unfold pso_post. case_eq (ps_gamma P).
      - intros g HG. apply calm_restart; assumption.
      - intros _. apply calm_ret, Hs.
    Qed.

    Lemma calm_pso_step sync it s : (2 <= it <= Z.max 2 (ps_maxiter P))%Z -> PI s ->
      calm (pso_step P sync it s) (fun r => PI (fst r) /\ known it (ps_maxiter P) (snd r)).
    Proof.
      intros Hit Hs. unfold pso_step. eapply calm_bind; [apply calm_rand_mat|]. intros r1 Hr1.
      eapply calm_bind; [apply calm_rand_mat|]. intros r2 Hr2.
      eapply (calm_bind _ _ (fun r => PI (fst r) /\ known it (ps_maxiter P) (snd r))).
      - destruct sync.
        + destruct Hs as (HX & HV & Hb & Hf & _). unfold pso_sync. eapply calm_bind; [apply calm_if, Hl|].
          intros _ _. cbn zeta. assert (HL : length (pso_moves P r1 r2 s) = ps_p P).
          { unfold pso_moves. rewrite map3_length, !combine_length, HX, HV, Hb, Hr1, Hr2. lia. }
          eapply calm_bind.
          { apply (calm_selection (ps_p P)); auto. rewrite <- HL, <- (map_length fst).
            apply calm_eval_pop, Hm. }
          intros sel (S1 & S2 & S3 & S4 & S5). apply calm_ret. unfold PI. cbn. rewrite map_length. auto 7.
        + unfold pso_async. eapply (calm_bind _ _ (fun r => PI (fst r) /\ forall c, snd r = Some c -> message c <> None)).
          * apply calm_foldM; [split; [exact Hs|discriminate]|]. clear s Hs.
            intros [s o] i _ [(HX & HV & Hb & Hf & Hpf) _]. cbn [fst snd] in *. unfold pso_async_one. cbn zeta.
            eapply calm_bind; [apply calm_when, calm_set_arg|]. intros _ _.
            eapply calm_bind; [apply calm_async|]. intros sel (S1 & S2 & S3). cbn [fst snd] in *.
            apply calm_ret. unfold PI. cbn. rewrite !upd_length. rewrite S1, S2. auto 6.
          * intros [s' o] [Hs' Ho]. cbn [fst snd] in *. apply calm_ret. cbn [fst snd]. split; [exact Hs'|].
            destruct o as [c|]; [apply Ho; reflexivity|].
            destruct (Z.leb_spec (ps_maxiter P) it); cbn; [discriminate|assumption].
      - intros [s' o] [(HX & HV & Hb & Hf & Hpf) Ho]. cbn [fst snd] in *.
        eapply calm_bind; [apply (calm_rec_write (ps_p P)); [exact Hr|lia|exact HX|exact Hpf]|].
        intros r _. apply calm_ret. unfold PI. cbn. auto 6.
    Qed.
  End Pso.

  (** ** na *)
  Section Na.
    (** new models are drawn without an exception from models that satisfy [G], and satisfy [G] *)
    Definition Mutates (G : vec -> Prop) (P : NAParams) : Prop := forall Xall fit, Forall G Xall ->
      calm (na_mutation P Xall fit) (fun X => length X = na_p P /\ Forall G X).

    Context (P : NAParams) (Hm : ModeOK (na_mode P)) (Hp : (1 <= na_p P)%nat)
      (Hr : room (na_p P) (na_maxiter P) (na_nout P)) (G : vec -> Prop) (HG : Mutates G P).

    Lemma calm_na_one (H : extra OverflowError) mask Xall ix i : calm (na_one P mask Xall ix i) (fun _ => True).
    Proof.
      unfold na_one. cbn zeta. eapply (calm_bind _ _ (fun _ => True)); [|intros; apply calm_ret; exact I].
      apply calm_foldM; [exact I|]. intros [[x d1] d2] j _ _. unfold na_axis.
      destruct (negb _); [apply calm_ret; exact I|]. unfold uniform1.
      eapply (calm_bind _ _ (fun _ => True)); [eapply calm_bind; [apply calm_urange; auto|]; intros; apply calm_uniform|]. intros v _.
      destruct (_ <? _)%nat; apply calm_ret; exact I.
    Qed.
    Lemma Mutates_any : extra OverflowError -> Mutates (fun _ => True) P.
    Proof.
      intros H Xall fit _. unfold na_mutation. cbn zeta.
      eapply calm_conseq; [apply (calm_mapM _ _ (fun _ => True)); intros; apply calm_na_one, H|].
      intros X [HL HF]. rewrite seq_length in HL. auto.
    Qed.

    Definition NI (s : NAS) : Prop :=
      length (nas_pbest s) = na_p P /\ length (nas_pbestfit s) = na_p P /\ Forall G (nas_Xall s).

    Lemma calm_na_eval X : calm (na_eval P X) (fun Xf => length (fst Xf) = length X /\ length (snd Xf) = length X).
    Proof.
      unfold na_eval. eapply calm_bind; [apply calm_eval_pop, Hm|]. intros [X' f] [_ Hf]. apply calm_ret.
      cbn in *. rewrite map_length in Hf. auto.
    Qed.
    Lemma calm_na_step it s : (2 <= it <= Z.max 2 (na_maxiter P))%Z -> NI s ->
      calm (na_step P it s) (fun r => NI (fst r) /\ known it (na_maxiter P) (snd r)).
    Proof.
      intros Hit (HX & Hf & Ha). unfold na_step.
      eapply calm_bind; [apply HG, Ha|]. intros X [HL HF]. cbn zeta.
      eapply calm_bind.
      { apply (calm_selection (na_p P)); auto. rewrite <- HL. apply calm_na_eval. }
      intros sel (S1 & S2 & S3 & S4 & S5).
      eapply calm_bind; [apply (calm_rec_write (na_p P)); [exact Hr|lia|rewrite map_length; exact HL|exact S4]|].
      intros r _. apply calm_ret. unfold NI. cbn. repeat split; auto. apply Forall_app. auto.
    Qed.
  End Na.

  (** ** Whole calls *)
  Notation lows rows := (map (fun r => nth 0 r n0) rows).
  Notation ups rows := (map (fun r => nth 1 r n0) rows).
  Lemma calm_x0 a lo hi d : ValidPop a ->
    calm (match a_x0 a with Some x => ret (nd_rows x) | None => lhs (Z.to_nat (a_popsize a)) d lo hi end)
         (fun X => length X = Z.to_nat (a_popsize a)).
  Proof. intros H. apply calm_silent, silent_x0_len, H. Qed.
  Lemma calm_check_pop a : ValidPop a -> calm (check_pop a) (fun _ => True).
  Proof. intros H. apply calm_silent, silent_check_pop, H. Qed.

  (** The bounds have at least one row. *)
  Definition HasDim (a : Args) : Prop := (1 <= nd_len (a_bounds a))%nat.
  (** x0, when given, is an array, not a list. *)
  Definition ArrayX0 (a : Args) : Prop := a_x0 a <> None -> a_x0_array a = true.

  Lemma array_not_list a : ArrayX0 a ->
    match a_x0 a with Some _ => negb (a_x0_array a) | None => false end = false.
  Proof. unfold ArrayX0. intros H. destruct (a_x0 a); auto. rewrite H by discriminate. reflexivity. Qed.

  Tactic Notation "cl" uconstr(L) := eapply calm_bind; [eapply calm_silent, L|].

  Lemma calm_de A : EnvOK -> ValidDE A -> HasDim (dea A) -> ArrayX0 (dea A) -> RecOK (dea A) ->
    (needs (dea_strategy A) <= a_popsize (dea A) - 1)%Z ->
    (a_constraints (dea A) <> None -> FiniteRange (a_bounds (dea A))) -> calm (de_minimize A) (fun _ => True).
  Proof.
    intros HE [H1 H2 H3 H4 H5 H6] Hd Hx Hr Hn HU. pose proof (vp_pop _ H1) as Hp2. unfold de_minimize. cbn zeta.
    cl silent_check_pop; [exact H1|]. intros _ _.
    cl silent_if; [apply within_outside, H2|]. intros _ _.
    cl silent_if; [apply within_outside, H3|]. intros _ _.
    cl silent_check_updating; [exact H5|]. intros _ _.
    destruct (strategy_ok _ H4) as [st Hst].
    eapply calm_bind; [eapply calm_orelse, Hst|]. intros st' ->. rewrite (needs_map _ _ Hst) in Hn.
    cl silent_seed_and_cb; [apply H1|]. intros _ _.
    unfold de. eapply calm_bind; [apply calm_eval_kindM|]. intros m _. cbn zeta.
    destruct (vp_bounds _ H1) as (ndim & (rows & Hb & Hlr) & _).
    rewrite Hb. cbn [unpack_bounds]. eapply (calm_bind _ _ (fun l => l = (lows rows, ups rows))); [apply calm_ret; reflexivity|].
    intros l ->. rewrite <- Hb.
    assert (Hc : exists c, de_cons_map (a_constraints (dea A)) = Some c)
      by (destruct H6 as [<-|[<-|[]]]; eexists; reflexivity).
    destruct Hc as [c Hc]. eapply calm_bind; [eapply calm_orelse, Hc|]. intros c' ->.
    eapply calm_bind; [apply calm_x0, H1|]. intros X HX.
    eapply calm_bind; [apply calm_if; rewrite array_not_list by exact Hx; reflexivity|]. intros _ _.
    eapply calm_bind; [apply calm_eval_pop, EnvOK_mode, HE|]. intros [X' f] [HX' Hf]. cbn [fst snd] in *.
    eapply calm_bind; [apply calm_when, calm_set_arg|]. intros _ _.
    eapply calm_bind; [apply calm_argmin; intros ->; cbn in Hf; lia|]. intros gb _.
    eapply calm_bind; [apply calm_rec_alloc; [exact Hr|lia]|]. intros no Hno.
    eapply calm_bind; [apply (calm_rec_write (Z.to_nat (a_popsize (dea A)))); [exact Hno|lia|congruence|congruence]|].
    intros r _. eapply calm_bind; [apply calm_when, calm_cb|]. intros _ _.
    match goal with |- calm (drive (de_drv ?P _) _ _ _ _) _ =>
      apply (calm_drive _ (DI P) (a_maxiter (dea A))) end.
    - intros it s Hit Hs. cbn [d_step de_drv].
      match goal with |- calm (de_step ?P _ _ _) _ => apply (calm_de_step P HE) end; cbn [de_mode de_p de_d de_list de_strat de_maxiter de_nout];
        auto; try lia; [apply EnvOK_mode, HE|apply array_not_list, Hx|].
      cbn [de_con de_lower de_upper]. intros ->. apply frange_rows. rewrite <- Hb. apply HU.
      intros HN. rewrite HN in Hc. discriminate.
    - intros it s _ Hs. apply calm_ret, Hs.
    - lia.
    - unfold DI. cbn. rewrite HX', Hf, HX. auto.
  Qed.

  (** The number of particles to restart is defined (it is undefined when [competitivity] or the
      arithmetic makes it NaN). *)
  Definition RestartOK (A : CPSOArgs) : Prop :=
    forall g it, pa_competitivity A = Some g -> (2 <= it < a_maxiter (pa A))%Z ->
      restart_count (Z.to_nat (a_popsize (pa A))) it (a_maxiter (pa A)) g <> None.

  Lemma calm_cpso A : EnvOK -> ValidCPSO A -> ArrayX0 (pa A) -> RecOK (pa A) -> RestartOK A ->
    (pa_competitivity A <> None -> FiniteRange (a_bounds (pa A))) -> calm (cpso_minimize A) (fun _ => True).
  Proof.
    intros HE [H1 H2 H3 H4 Hg H5 H6] Hx Hr HR HU. pose proof (vp_pop _ H1) as Hp2. unfold cpso_minimize. cbn zeta.
    cl silent_check_pop; [exact H1|]. intros _ _.
    cl silent_if; [apply within_outside, H2|]. intros _ _.
    cl silent_if; [apply within_outside, H3|]. intros _ _.
    cl silent_if; [apply within_outside, H4|]. intros _ _.
    cl silent_if; [destruct (pa_competitivity A); [apply within_outside, Hg|reflexivity]|]. intros _ _.
    cl silent_check_updating; [exact H5|]. intros _ _.
    cl silent_seed_and_cb; [apply H1|]. intros _ _.
    unfold cpso. eapply calm_bind; [apply calm_eval_kindM|]. intros m _. cbn zeta.
    destruct (vp_bounds _ H1) as (ndim & (rows & Hb & Hlr) & _).
    rewrite Hb. cbn [unpack_bounds]. eapply (calm_bind _ _ (fun l => l = (lows rows, ups rows))); [apply calm_ret; reflexivity|].
    intros l ->. rewrite <- Hb.
    assert (Hc : exists c, pso_cons_map (a_constraints (pa A)) = Some c)
      by (destruct H6 as [<-|[<-|[]]]; eexists; reflexivity).
    destruct Hc as [c Hc]. eapply calm_bind; [eapply calm_orelse, Hc|]. intros c' ->.
    eapply calm_bind; [apply calm_x0, H1|]. intros X HX.
    eapply calm_bind; [apply calm_if; rewrite array_not_list by exact Hx; reflexivity|]. intros _ _.
    eapply calm_bind; [apply calm_eval_pop, EnvOK_mode, HE|]. intros [X' f] [HX' Hf]. cbn [fst snd] in *.
    eapply calm_bind; [apply calm_when, calm_set_arg|]. intros _ _.
    eapply calm_bind; [apply calm_argmin; intros ->; cbn in Hf; lia|]. intros gb _.
    eapply calm_bind; [apply calm_rec_alloc; [exact Hr|lia]|]. intros no Hno.
    eapply calm_bind; [apply (calm_rec_write (Z.to_nat (a_popsize (pa A)))); [exact Hno|lia|congruence|congruence]|].
    intros r _. eapply calm_bind; [apply calm_when, calm_cb|]. intros _ _.
    match goal with |- calm (drive (pso_drv ?P _) _ _ _ _) _ =>
      apply (calm_drive _ (PI P) (a_maxiter (pa A))) end.
    - intros it s Hit Hs. cbn [d_step pso_drv].
      match goal with |- calm (pso_step ?P _ _ _) _ => apply (calm_pso_step P) end; cbn [ps_mode ps_p ps_list ps_maxiter ps_nout]; auto;
        try lia; [apply EnvOK_mode, HE|apply array_not_list, Hx].
    - intros it s Hit Hs. cbn [d_post pso_drv].
      match goal with |- calm (pso_post ?P _ _) _ => apply (calm_pso_post P) end;
        [cbn; lia| | |exact Hit|exact Hs]; cbn [ps_p ps_gamma ps_maxiter ps_lower ps_upper].
      2:{ intros Hgm. apply frange_rows. rewrite <- Hb. apply HU. destruct (pa_competitivity A); cbn in Hgm; congruence. }
      intros g it' Hgm. apply HR. destruct (pa_competitivity A) as [g'|]; cbn [truthy] in Hgm; [|discriminate].
      destruct (neqb g' n0); [discriminate|exact Hgm].
    - lia.
    - unfold PI. cbn. rewrite repeat_length, HX', Hf, HX. auto 6.
  Qed.

  Lemma calm_na A (G : vec -> Prop) : EnvOK -> ValidNA A -> RecOK (naa A) ->
    ntrunc (nmul (naa_nrperc A) (nZ (a_popsize (naa A)))) <> None ->
    (forall rows, a_bounds (naa A) = D2 2 rows ->
       calm (match a_x0 (naa A) with
             | Some x => ret (nd_rows x)
             | None => lhs (Z.to_nat (a_popsize (naa A))) (nd_len (a_bounds (naa A))) (lows rows) (ups rows)
             end) (fun X => Forall (fun x => G (normalize (lows rows) (ups rows) x)) X) /\
       forall P, na_lower P = lows rows -> na_upper P = ups rows -> Mutates G P) ->
    calm (na_minimize A) (fun _ => True).
  Proof.
    intros HE [H1 H2] Hr Hn HG. pose proof (vp_pop _ H1) as Hp2. unfold na_minimize. cbn zeta.
    cl silent_check_pop; [exact H1|]. intros _ _.
    cl silent_if; [apply within_outside_open, H2|]. intros _ _.
    cl silent_seed_and_cb; [apply H1|]. intros _ _.
    unfold na. eapply calm_bind; [apply calm_eval_kindM|]. intros m _. cbn zeta.
    destruct (vp_bounds _ H1) as (ndim & (rows & Hb & Hlr) & _).
    rewrite Hb. cbn [unpack_bounds]. eapply (calm_bind _ _ (fun l => l = (lows rows, ups rows))); [apply calm_ret; reflexivity|].
    intros l ->. rewrite <- Hb.
    eapply calm_bind; [apply calm_orelse_def, Hn|]. intros nr _.
    destruct (HG rows Hb) as [HI HM].
    eapply calm_bind; [apply calm_both; [apply calm_x0, H1|exact HI]|]. intros X [HX HXG].
    eapply calm_bind; [apply calm_na_eval, EnvOK_mode, HE|]. intros [X' f] [_ Hf]. cbn [fst snd] in *.
    rewrite map_length in Hf.
    eapply calm_bind; [apply calm_argmin; intros ->; cbn in Hf; lia|]. intros gb _.
    eapply calm_bind; [apply calm_rec_alloc; [exact Hr|lia]|]. intros no Hno.
    eapply calm_bind; [apply (calm_rec_write (Z.to_nat (a_popsize (naa A))));
      [exact Hno|lia|rewrite map_length; exact HX|congruence]|].
    intros r _. eapply calm_bind; [apply calm_when, calm_cb|]. intros _ _.
    match goal with |- calm (drive (na_drv ?P) _ _ _ _) _ =>
      apply (calm_drive _ (NI P G) (a_maxiter (naa A))) end.
    - intros it s Hit Hs. cbn [d_step na_drv].
      match goal with |- calm (na_step ?P _ _) _ => apply (fun h1 h2 h3 => calm_na_step P h1 h2 h3 G) end;
        cbn [na_mode na_p na_maxiter na_nout]; auto; try lia. apply EnvOK_mode, HE.
    - intros it s _ Hs. apply calm_ret, Hs.
    - lia.
    - unfold NI. cbn. rewrite map_length, Hf, HX. repeat split.
      apply Forall_map. exact HXG.
  Qed.

  (** A call that the documentation allows; the last conditions are met by every sensible value
      in exact arithmetic (CalmEx.v). *)
  Definition Ready (c : PopCall) : Prop :=
    RecOK (pop_args c) /\
    match c with
    | CallDE A => ValidDE A /\ HasDim (dea A) /\ ArrayX0 (dea A) /\
                  (needs (dea_strategy A) <= a_popsize (dea A) - 1)%Z /\
                  (a_constraints (dea A) <> None -> FiniteRange (a_bounds (dea A)))
    | CallCPSO A => ValidCPSO A /\ ArrayX0 (pa A) /\ RestartOK A /\
                    (pa_competitivity A <> None -> FiniteRange (a_bounds (pa A)))
    | CallPSO A => ValidCPSO (mkCPSOArgs (psa A) (psa_inertia A) (psa_cognitivity A) (psa_sociability A)
                                         None (psa_updating A)) /\ ArrayX0 (psa A)
    | CallNA A => ValidNA A /\ ntrunc (nmul (naa_nrperc A) (nZ (a_popsize (naa A)))) <> None
    end.
  Definition is_na (c : PopCall) : Prop := match c with CallNA _ => True | _ => False end.

  Lemma calm_pop c : EnvOK -> Ready c -> (is_na c -> extra OverflowError) -> calm (pop_run c) (fun _ => True).
  Proof.
    intros HE [Hr H] HO. destruct c as [A|A|A|A]; cbn [pop_run pop_args is_na] in *.
    - destruct H as (H1 & H2 & H3 & H4 & H5). apply calm_de; auto.
    - destruct H as (H1 & H2 & H3 & H4). apply calm_cpso; auto.
    - destruct H as (H1 & H2). apply calm_cpso; auto; [|cbn; congruence]. intros g it. cbn. discriminate.
    - destruct H as (H1 & H2). apply (calm_na A (fun _ => True)); auto. intros rows Hb. split.
      + eapply calm_conseq; [apply calm_x0, H1|]. intros X _. apply Forall_forall. auto.
      + intros P _ _. apply Mutates_any, HO, I.
  Qed.
End Calm.

Section Leaves.
  Context {N : Num} {E : Env N}.

  Lemma calm_leaves (X : Exn -> Prop) c w a0 e st' : EnvOK -> calm (extra := X) (pop_run c) (fun _ => True) ->
    exec (pop_run c) w a0 = (inr e, st') -> (exists n, e = UserError n /\ user_raises n) \/ X e.
  Proof.
    intros HE HC Hx. specialize (HC (mkSt w [] a0)). unfold exec in Hx. rewrite Hx in HC. cbn in HC.
    destruct HC as [[H| ->]|H]; [left; exact H| |right; exact H].
    destruct (C01_terminates_population c w a0 st' HE Hx).
  Qed.

  (** C56: whatever exception leaves the call, the user's objective or callback raised it, or it is
      na and the arithmetic has made the limits of a cell infinite. *)
  Theorem C56_only_user_exceptions c w a0 e st' :
    EnvOK -> Ready c -> exec (pop_run c) w a0 = (inr e, st') ->
    (exists n, e = UserError n /\ user_raises n) \/ (is_na c /\ e = OverflowError).
  Proof.
    intros HE HR. apply (calm_leaves (fun e => is_na c /\ e = OverflowError) _ _ _ _ _ HE).
    apply (calm_pop (extra := fun e => is_na c /\ e = OverflowError) c HE HR). auto.
  Qed.

  (** With user code that never raises the call returns a result. *)
  Theorem C56_returns c w a0 :
    EnvOK -> Ready c -> ~ is_na c -> (forall n, ~ user_raises n) ->
    exists res st', exec (pop_run c) w a0 = (inl res, st').
  Proof.
    intros HE HR HN Hn. destruct (exec (pop_run c) w a0) as [[res|e] st'] eqn:Hx; [eauto|].
    destruct (C56_only_user_exceptions c w a0 e st' HE HR Hx) as [(n & _ & H)|[H _]]; [destruct (Hn n H)|contradiction].
  Qed.
End Leaves.

(** The condition on [maxiter] is needed: at least two generations are recorded. *)
Section Room.
  Context {N : Num} {E : Env N}.

  (** [m] returns only if [Q] *)
  Definition only {A} (m : M A) (Q : A -> Prop) : Prop := forall s, match fst (m s) with inl a => Q a | inr _ => True end.
  Lemma only_bind {A B} (m : M A) (k : A -> M B) (R : A -> Prop) (Q : B -> Prop) :
    only m R -> (forall a, R a -> only (k a) Q) -> only (bind m k) Q.
  Proof.
    intros Hm Hk s. specialize (Hm s). unfold bind. destruct (m s) as [[a|e] s1]; cbn in *; [|exact I]. apply Hk, Hm.
  Qed.
  Lemma only_any {A} (m : M A) : only m (fun _ => True).
  Proof. intros s. destruct (fst (m s)); exact I. Qed.
  Lemma only_ret {A} (a : A) (Q : A -> Prop) : Q a -> only (ret a) Q.
  Proof. intros H s. exact H. Qed.
  Lemma only_last {A B} (m : M A) (k : A -> M B) (Q : B -> Prop) : (forall a, only (k a) Q) -> only (bind m k) Q.
  Proof. intros H. eapply only_bind; [apply only_any|auto]. Qed.

  Lemma only_alloc v p mx : only (rec_alloc true v p mx) (fun no => no <> None).
  Proof.
    unfold rec_alloc. apply only_last. intros n. destruct (mx <? 0)%Z; [intros s; exact I|apply only_ret; discriminate].
  Qed.
  Lemma only_write n mx it pop pfit best r :
    only (rec_write (Some n) mx it pop pfit best (Some r)) (fun r' => (it <= mx)%Z /\ r' <> None).
  Proof.
    unfold rec_write. eapply (only_bind _ _ (fun _ => (it <= mx)%Z)).
    - unfold rec_put. destruct (Z.ltb_spec mx it); [intros s; exact I|]. intros s. destruct (fst _); [assumption|exact I].
    - intros r' H. apply only_ret. split; [exact H|discriminate].
  Qed.
  Lemma only_drive {S} (d : Drv S) cb k it s (mx : Z) :
    only (d_step d (it + 1) s) (fun _ => (it + 1 <= mx)%Z) -> only (drive d cb (Datatypes.S k) it s) (fun _ => (it + 1 <= mx)%Z).
  Proof.
    intros H. cbn [drive]. eapply only_bind; [exact H|]. intros [s' o] Hle.
    eapply only_bind; [apply only_any|]. intros _ _.
    destruct o; intros st; match goal with |- match ?x with _ => _ end => destruct x end; auto.
  Qed.

  Lemma only_de_step P sync it s n r : de_nout P = Some n -> des_rec s = Some r ->
    only (de_step P sync it s) (fun _ => (it <= de_maxiter P)%Z).
  Proof.
    intros Hn Hr. unfold de_step. apply only_last. intros r1. apply only_last. intros _.
    eapply (only_bind _ _ (fun q => des_rec (fst q) = Some r)).
    - destruct sync.
      + unfold de_sync. do 3 (apply only_last; intros ?). apply only_ret. exact Hr.
      + unfold de_async. eapply (only_bind _ _ (fun q => des_rec (fst q) = Some r)); [|intros [s' o] H; apply only_ret; exact H].
        assert (G : forall l q, des_rec (fst q) = Some r -> only (foldM (de_async_one P r1) q l) (fun q => des_rec (fst q) = Some r)).
        { induction l as [|i l IH]; intros q Hq; cbn; [apply only_ret, Hq|].
          eapply only_bind; [|intros q' Hq'; apply IH, Hq']. unfold de_async_one. cbn zeta.
          do 3 (apply only_last; intros ?). apply only_ret. exact Hq. }
        apply G, Hr.
    - intros [s' o] Hr'. cbn [fst] in Hr'. rewrite Hn, Hr'.
      eapply only_bind; [apply only_write|]. intros r' [H _]. apply only_ret, H.
  Qed.
  Lemma only_pso_step P sync it s n r : ps_nout P = Some n -> pss_rec s = Some r ->
    only (pso_step P sync it s) (fun _ => (it <= ps_maxiter P)%Z).
  Proof.
    intros Hn Hr. unfold pso_step. apply only_last. intros r1. apply only_last. intros r2.
    eapply (only_bind _ _ (fun q => pss_rec (fst q) = Some r)).
    - destruct sync.
      + unfold pso_sync. do 2 (apply only_last; intros ?). apply only_ret. exact Hr.
      + unfold pso_async. eapply (only_bind _ _ (fun q => pss_rec (fst q) = Some r)); [|intros [s' o] H; apply only_ret; exact H].
        assert (G : forall l q, pss_rec (fst q) = Some r -> only (foldM (pso_async_one P r1 r2) q l) (fun q => pss_rec (fst q) = Some r)).
        { induction l as [|i l IH]; intros q Hq; cbn; [apply only_ret, Hq|].
          eapply only_bind; [|intros q' Hq'; apply IH, Hq']. unfold pso_async_one. cbn zeta.
          do 2 (apply only_last; intros ?). apply only_ret. exact Hq. }
        apply G, Hr.
    - intros [s' o] Hr'. cbn [fst] in Hr'. rewrite Hn, Hr'.
      eapply only_bind; [apply only_write|]. intros r' [H _]. apply only_ret, H.
  Qed.
  Lemma only_na_step P it s n r : na_nout P = Some n -> nas_rec s = Some r ->
    only (na_step P it s) (fun _ => (it <= na_maxiter P)%Z).
  Proof.
    intros Hn Hr. unfold na_step. apply only_last. intros X. apply only_last. intros sel. cbn zeta.
    rewrite Hn, Hr. eapply only_bind; [apply only_write|]. intros r' [H _]. apply only_ret, H.
  Qed.

  Lemma only_pop c : a_return_all (pop_args c) = true -> only (pop_run c) (fun _ => (2 <= a_maxiter (pop_args c))%Z).
  Proof.
    assert (HC : forall A, a_return_all (pa A) = true -> only (cpso_minimize A) (fun _ => (2 <= a_maxiter (pa A))%Z)).
    { intros A Hr. unfold cpso_minimize. cbn zeta. do 7 (apply only_last; intros ?). unfold cpso. rewrite Hr.
      apply only_last; intros m. cbn zeta. apply only_last; intros [lo hi]. do 3 (apply only_last; intros ?).
      apply only_last; intros [X f]. do 2 (apply only_last; intros ?).
      eapply only_bind; [apply only_alloc|]. intros [n|] Hn; [|congruence].
      eapply only_bind; [apply only_write|]. intros [r|] [_ Hr']; [|congruence].
      apply only_last. intros _. unfold fuel. rewrite Nat.add_comm. cbn [plus]. change 2%Z with (1 + 1)%Z.
      apply only_drive. cbn [d_step pso_drv].
      match goal with |- only (pso_step ?P ?s ?i ?q) _ => apply (only_pso_step P s i q n r); reflexivity end. }
    destruct c as [A|A|A|A]; cbn [pop_args pop_run]; intros Hr.
    - unfold de_minimize. cbn zeta. do 6 (apply only_last; intros ?). unfold de. rewrite Hr.
      apply only_last; intros m. cbn zeta. apply only_last; intros [lo hi]. do 3 (apply only_last; intros ?).
      apply only_last; intros [X f]. do 2 (apply only_last; intros ?).
      eapply only_bind; [apply only_alloc|]. intros [n|] Hn; [|congruence].
      eapply only_bind; [apply only_write|]. intros [r|] [_ Hr']; [|congruence].
      apply only_last. intros _. unfold fuel. rewrite Nat.add_comm. cbn [plus]. change 2%Z with (1 + 1)%Z.
      apply only_drive. cbn [d_step de_drv].
      match goal with |- only (de_step ?P ?s ?i ?q) _ => apply (only_de_step P s i q n r); reflexivity end.
    - apply HC, Hr.
    - apply (HC (mkCPSOArgs (psa A) (psa_inertia A) (psa_cognitivity A) (psa_sociability A) None (psa_updating A))), Hr.
    - unfold na_minimize. cbn zeta. do 3 (apply only_last; intros ?). unfold na. rewrite Hr.
      apply only_last; intros m. cbn zeta. apply only_last; intros [lo hi]. do 2 (apply only_last; intros ?).
      apply only_last; intros [X f]. apply only_last; intros ?.
      eapply only_bind; [apply only_alloc|]. intros [n|] Hn; [|congruence].
      eapply only_bind; [apply only_write|]. intros [r|] [_ Hr']; [|congruence].
      apply only_last. intros _. unfold fuel. rewrite Nat.add_comm. cbn [plus]. change 2%Z with (1 + 1)%Z.
      apply only_drive. cbn [d_step na_drv].
      match goal with |- only (na_step ?P ?i ?q) _ => apply (only_na_step P i q n r); reflexivity end.
  Qed.

  (** C56: with [return_all] and [maxiter] below 2 no call returns, whatever the other arguments. *)
  Theorem C56_return_all_small c w a0 :
    a_return_all (pop_args c) = true -> (a_maxiter (pop_args c) < 2)%Z ->
    exists e st', exec (pop_run c) w a0 = (inr e, st').
  Proof.
    intros Hr Hm. pose proof (only_pop c Hr (mkSt w [] a0)) as H. unfold exec.
    destruct (pop_run c (mkSt w [] a0)) as [[res|e] st']; cbn in H; [lia|eauto].
  Qed.
End Room.
