(** Program logic for the monad: weakest preconditions, and observations of the trace. *)
From Verif Require Import Base Num Env Common.

(** ** Observations of a trace *)
Section Obs.
  Context {A : Arith}.
  (** successful evaluations, in order *)
  Fixpoint evals (l : list event) : list (vec * T) :=
    match l with
    | [] => []
    | EEval x (inl y) :: t => (x, y) :: evals t
    | _ :: t => evals t
    end.
  (** number of calls of the objective *)
  Fixpoint ncalls (l : list event) : nat :=
    match l with
    | [] => 0
    | EEval _ _ :: t => S (ncalls t)
    | _ :: t => ncalls t
    end.
  (** calls of the (optimizer) callback, in order *)
  Fixpoint cbs (l : list event) : list (matrix * CbState) :=
    match l with
    | [] => []
    | ECb X st _ :: t => (X, st) :: cbs t
    | _ :: t => cbs t
    end.
  (** calls of the sampler callback, in order *)
  Fixpoint scbs (l : list event) : list (vec * SCbState) :=
    match l with
    | [] => []
    | ESCb x st _ :: t => (x, st) :: scbs t
    | _ :: t => scbs t
    end.
  (** is this event a call of user code that raised? *)
  Definition failed (e : event) : option nat :=
    match e with
    | EEval _ (inr n) => Some n
    | ECb _ _ (Some n) => Some n
    | ESCb _ _ (Some n) => Some n
    | _ => None
    end.

  Definition ok (p : vec * T) : event := EEval (fst p) (inl (snd p)).

  Lemma evals_app l1 l2 : evals (l1 ++ l2) = evals l1 ++ evals l2.
  Proof. induction l1 as [|[x [y|n]|? ? ?|? ? ?|?|?] l1 IH]; simpl; congruence. Qed.
  Lemma ncalls_app l1 l2 : ncalls (l1 ++ l2) = ncalls l1 + ncalls l2.
  Proof. induction l1 as [|[x [y|n]|? ? ?|? ? ?|?|?] l1 IH]; simpl; congruence. Qed.
  Lemma cbs_app l1 l2 : cbs (l1 ++ l2) = cbs l1 ++ cbs l2.
  Proof. induction l1 as [|[x [y|n]|? ? ?|? ? ?|?|?] l1 IH]; simpl; congruence. Qed.
  Lemma scbs_app l1 l2 : scbs (l1 ++ l2) = scbs l1 ++ scbs l2.
  Proof. induction l1 as [|[x [y|n]|? ? ?|? ? ?|?|?] l1 IH]; simpl; congruence. Qed.
  Lemma nbcast_app l1 l2 : nbcast (l1 ++ l2) = nbcast l1 + nbcast l2.
  Proof. induction l1 as [|[x [y|n]|? ? ?|? ? ?|?|?] l1 IH]; simpl; congruence. Qed.
  Lemma evals_ok l : evals (map ok l) = l.
  Proof. induction l as [|[x y] l IH]; simpl; congruence. Qed.
  Lemma ncalls_ok l : ncalls (map ok l) = length l.
  Proof. induction l as [|[x y] l IH]; simpl; congruence. Qed.
  Lemma cbs_ok l : cbs (map ok l) = [].
  Proof. induction l as [|[x y] l IH]; simpl; congruence. Qed.
  Lemma scbs_ok l : scbs (map ok l) = [].
  Proof. induction l as [|[x y] l IH]; simpl; congruence. Qed.
  Lemma nbcast_ok l : nbcast (map ok l) = 0.
  Proof. induction l as [|[x y] l IH]; simpl; congruence. Qed.
End Obs.

Section WP.
  Context {N : Num} {E : Env N}.

  Definition wp {A} (m : M A) (Q : A -> St -> Prop) (X : Exn -> St -> Prop) (s : St) : Prop :=
    match m s with
    | (inl a, s') => Q a s'
    | (inr e, s') => X e s'
    end.
  Arguments wp : simpl never.

  Lemma wp_ret {A} (a : A) (Q : A -> St -> Prop) (X : Exn -> St -> Prop) s :
    Q a s -> wp (ret a) Q X s.
  Proof. exact (fun H => H). Qed.
  Lemma wp_raise {A} e (Q : A -> St -> Prop) (X : Exn -> St -> Prop) s :
    X e s -> wp (raise e) Q X s.
  Proof. exact (fun H => H). Qed.
  Lemma wp_bind {A B} (m : M A) (k : A -> M B) (Q : B -> St -> Prop) (X : Exn -> St -> Prop) s :
    wp m (fun a s' => wp (k a) Q X s') X s -> wp (bind m k) Q X s.
  Proof. unfold wp, bind. destruct (m s) as [[a|e] s']; exact (fun H => H). Qed.
  Lemma wp_conseq {A} (m : M A) (Q Q' : A -> St -> Prop) (X X' : Exn -> St -> Prop) s :
    wp m Q X s -> (forall a s', Q a s' -> Q' a s') -> (forall e s', X e s' -> X' e s') ->
    wp m Q' X' s.
  Proof. unfold wp. destruct (m s) as [[a|e] s']; auto. Qed.
  Lemma wp_post {A} (m : M A) (Q Q' : A -> St -> Prop) (X : Exn -> St -> Prop) s :
    wp m Q X s -> (forall a s', Q a s' -> Q' a s') -> wp m Q' X s.
  Proof. intros H1 H2; eapply wp_conseq; eauto. Qed.
  Lemma wp_and {A} (m : M A) (Q Q' : A -> St -> Prop) (X X' : Exn -> St -> Prop) s :
    wp m Q X s -> wp m Q' X' s ->
    wp m (fun a s' => Q a s' /\ Q' a s') (fun e s' => X e s' /\ X' e s') s.
  Proof. unfold wp. destruct (m s) as [[a|e] s']; auto. Qed.

  (** From a wp to a fact about a returned value. *)
  Lemma wp_elim {A} (m : M A) (Q : A -> St -> Prop) (X : Exn -> St -> Prop) s a s' :
    wp m Q X s -> m s = (inl a, s') -> Q a s'.
  Proof. unfold wp; intros H Heq; rewrite Heq in H; exact H. Qed.
  Lemma wp_elim_exn {A} (m : M A) (Q : A -> St -> Prop) (X : Exn -> St -> Prop) s e s' :
    wp m Q X s -> m s = (inr e, s') -> X e s'.
  Proof. unfold wp; intros H Heq; rewrite Heq in H; exact H. Qed.

  (** The exceptional postcondition used almost everywhere: the model never runs out of fuel. *)
  Definition NF : Exn -> St -> Prop := fun e _ => e <> OutOfFuel.

  (** Quiet computations only move the generator; [Q] describes the value. *)
  Definition quiet {A} (m : M A) (Q : A -> Prop) : Prop :=
    forall s, wp m (fun a s' => tr s' = tr s /\ argbuf s' = argbuf s /\ Q a)
                   (fun e s' => tr s' = tr s /\ argbuf s' = argbuf s /\ e <> OutOfFuel
                                /\ forall n, e <> UserError n) s.

  Lemma quiet_ret {A} (a : A) (Q : A -> Prop) : Q a -> quiet (ret a) Q.
  Proof. intros H s; apply wp_ret; auto. Qed.
  Lemma quiet_raise {A} e (Q : A -> Prop) :
    e <> OutOfFuel -> (forall n, e <> UserError n) -> quiet (raise e) Q.
  Proof. intros H H' s; apply wp_raise; auto. Qed.
  Lemma quiet_bind {A B} (m : M A) (k : A -> M B) Q R :
    quiet m Q -> (forall a, Q a -> quiet (k a) R) -> quiet (bind m k) R.
  Proof.
    intros H1 H2 s. apply wp_bind. eapply wp_conseq; [apply H1| |].
    - intros a s' (Ht & Hb & Ha). eapply wp_conseq; [apply (H2 a Ha)| |]; cbn.
      + intros b s'' (Ht' & Hb' & Hb''). rewrite Ht', Hb'; auto.
      + intros e s'' (Ht' & Hb' & Hb''). rewrite Ht', Hb'; auto.
    - auto.
  Qed.
  Lemma quiet_conseq {A} (m : M A) (Q R : A -> Prop) :
    quiet m Q -> (forall a, Q a -> R a) -> quiet m R.
  Proof.
    intros H1 H2 s. eapply wp_conseq; [apply H1| |]; cbn.
    - intros a s' (? & ? & ?); auto.
    - auto.
  Qed.
  Lemma quiet_draw {A} (f : RNG -> A * RNG) (Q : A -> Prop) :
    (forall r, Q (fst (f r))) -> quiet (draw f) Q.
  Proof.
    intros H s. unfold wp, draw. specialize (H (fst (rs s))).
    destruct (f (fst (rs s))) as [a r]; cbn in *; auto.
  Qed.
  Lemma quiet_replicateM {A} n (m : M A) (Q : A -> Prop) :
    quiet m Q -> quiet (replicateM n m) (fun l => length l = n /\ Forall Q l).
  Proof.
    intros H; induction n as [|n IH]; cbn.
    - apply quiet_ret; auto.
    - eapply quiet_bind; [exact H|]; intros a Ha.
      eapply quiet_bind; [exact IH|]; intros l [Hl HF]. apply quiet_ret; split; cbn; auto.
  Qed.
  Lemma quiet_mapM {A B} (f : A -> M B) (l : list A) (Q : A -> B -> Prop) :
    (forall a, In a l -> quiet (f a) (Q a)) ->
    quiet (mapM f l) (fun bs => Forall2 Q l bs).
  Proof.
    induction l as [|a l IH]; intros H; cbn.
    - apply quiet_ret; constructor.
    - eapply quiet_bind; [apply H; left; reflexivity|]; intros b Hb.
      eapply quiet_bind; [apply IH; intros; apply H; right; assumption|]; intros bs Hbs.
      apply quiet_ret; constructor; assumption.
  Qed.
  Lemma quiet_foldM {A B} (f : A -> B -> M A) (I : list B -> A -> Prop) (l : list B) :
    forall done acc, I done acc ->
    (forall pre b post a, l = pre ++ b :: post -> I (done ++ pre) a ->
                          quiet (f a b) (I (done ++ pre ++ [b]))) ->
    quiet (foldM f acc l) (I (done ++ l)).
  Proof.
    induction l as [|b l IH]; intros done acc Hi H; cbn.
    - apply quiet_ret; rewrite app_nil_r; exact Hi.
    - eapply quiet_bind.
      + apply (H [] b l); [reflexivity|]. rewrite app_nil_r; exact Hi.
      + intros a Ha. replace (done ++ b :: l) with ((done ++ [b]) ++ l)
          by (rewrite <- app_assoc; reflexivity).
        apply IH; [exact Ha|]. intros pre b' post a' Hl Ha'.
        rewrite <- app_assoc in Ha' |- *. cbn in Ha' |- *.
        apply (H (b :: pre) b' post); [rewrite Hl; reflexivity|exact Ha'].
  Qed.

  Lemma quiet_rand : quiet rand (fun _ => True).
  Proof. apply quiet_draw; auto. Qed.
  Lemma quiet_randn : quiet randn (fun _ => True).
  Proof. apply quiet_draw; auto. Qed.
  (** what [np.random.rand] can return *)
  Definition isrand (u : T) : Prop := exists r, u = fst (e_rand r).
  Definition draws (d : nat) (r : vec) : Prop := length r = d /\ Forall isrand r.
  Lemma quiet_rand' : quiet rand isrand.
  Proof. apply quiet_draw. intros r; exists r; reflexivity. Qed.
  Lemma quiet_draws p d : quiet (rand_mat p d) (fun m => length m = p /\ Forall (draws d) m).
  Proof. unfold rand_mat. apply quiet_replicateM, quiet_replicateM, quiet_rand'. Qed.
  Lemma quiet_rand_mat p d :
    quiet (rand_mat p d) (fun m => length m = p /\ Forall (fun r : vec => length r = d) m).
  Proof.
    unfold rand_mat. apply quiet_replicateM.
    eapply quiet_conseq; [apply quiet_replicateM, quiet_rand|]. intros a [H _]; exact H.
  Qed.
  Lemma quiet_randn_vec d : quiet (randn_vec d) (fun r : vec => length r = d).
  Proof.
    eapply quiet_conseq; [apply quiet_replicateM, quiet_randn|]. intros a [H _]; exact H.
  Qed.
  Lemma quiet_uniform lo hi : quiet (uniform lo hi) (fun _ => True).
  Proof.
    unfold uniform. eapply quiet_bind; [apply quiet_rand|]. intros; apply quiet_ret; auto.
  Qed.
  Lemma quiet_urange lo hi : quiet (urange lo hi) (fun _ => True).
  Proof. unfold urange. destruct (frange _ _); [apply quiet_ret; exact I|apply quiet_raise; discriminate]. Qed.
  Lemma quiet_uniform1 lo hi : quiet (uniform1 lo hi) (fun _ => True).
  Proof. unfold uniform1. eapply quiet_bind; [apply quiet_urange|]. intros; apply quiet_uniform. Qed.
  Lemma quiet_orelse {A} (o : option A) e (Q : A -> Prop) :
    (forall a, o = Some a -> Q a) -> e <> OutOfFuel -> (forall n, e <> UserError n) ->
    quiet (orelse o e) Q.
  Proof.
    intros H1 H2 H3; destruct o; cbn; [apply quiet_ret; auto|apply quiet_raise; auto].
  Qed.
  Lemma quiet_raise_if b e :
    e <> OutOfFuel -> (forall n, e <> UserError n) -> quiet (raise_if b e) (fun _ => b = false).
  Proof. intros; destruct b; cbn; [apply quiet_raise|apply quiet_ret]; auto. Qed.

  (** Using a quiet computation in a wp proof. *)
  Lemma wp_quiet {A B} (m : M A) (k : A -> M B) Q (R : B -> St -> Prop) (X : Exn -> St -> Prop) s :
    quiet m Q ->
    (forall a s', tr s' = tr s -> argbuf s' = argbuf s -> Q a -> wp (k a) R X s') ->
    (forall e s', e <> OutOfFuel -> (forall n, e <> UserError n) -> tr s' = tr s ->
                  argbuf s' = argbuf s -> X e s') ->
    wp (bind m k) R X s.
  Proof.
    intros H1 H2 H3. apply wp_bind. eapply wp_conseq; [apply H1| |]; cbn.
    - intros a s' (? & ? & ?); apply H2; auto.
    - intros e s' (? & ? & ? & ?); apply H3; auto.
  Qed.
  Lemma wp_quiet_NF {A B} (m : M A) (k : A -> M B) Q (R : B -> St -> Prop) s :
    quiet m Q ->
    (forall a s', tr s' = tr s -> argbuf s' = argbuf s -> Q a -> wp (k a) R NF s') ->
    wp (bind m k) R NF s.
  Proof. intros H1 H2; eapply wp_quiet; [exact H1|exact H2|]; unfold NF; auto. Qed.

  (** Calls of user code. *)
  Lemma wp_call_fun x (Q : T -> St -> Prop) (X : Exn -> St -> Prop) s :
    (forall y w, e_fun x (rs s) = (inl y, w) ->
                 Q y (mkSt w (tr s ++ [EEval x (inl y)]) (argbuf s))) ->
    (forall n w, e_fun x (rs s) = (inr n, w) ->
                 X (UserError n) (mkSt w (tr s ++ [EEval x (inr n)]) (argbuf s))) ->
    wp (call_fun x) Q X s.
  Proof.
    intros H1 H2. unfold wp, call_fun. destruct (e_fun x (rs s)) as [[y|n] w]; auto.
  Qed.
  Lemma wp_call_cb P st (Q : unit -> St -> Prop) (X : Exn -> St -> Prop) s :
    (forall w, e_cb P st (rs s) = (None, w) ->
               Q tt (mkSt w (tr s ++ [ECb P st None]) (argbuf s))) ->
    (forall n w, e_cb P st (rs s) = (Some n, w) ->
                 X (UserError n) (mkSt w (tr s ++ [ECb P st (Some n)]) (argbuf s))) ->
    wp (call_cb P st) Q X s.
  Proof.
    intros H1 H2. unfold wp, call_cb. destruct (e_cb P st (rs s)) as [[n|] w]; auto.
  Qed.
  Lemma wp_call_scb x st (Q : unit -> St -> Prop) (X : Exn -> St -> Prop) s :
    (forall w, e_scb x st (rs s) = (None, w) ->
               Q tt (mkSt w (tr s ++ [ESCb x st None]) (argbuf s))) ->
    (forall n w, e_scb x st (rs s) = (Some n, w) ->
                 X (UserError n) (mkSt w (tr s ++ [ESCb x st (Some n)]) (argbuf s))) ->
    wp (call_scb x st) Q X s.
  Proof.
    intros H1 H2. unfold wp, call_scb. destruct (e_scb x st (rs s)) as [[n|] w]; auto.
  Qed.
  Lemma wp_set_arg m (Q : unit -> St -> Prop) (X : Exn -> St -> Prop) s :
    Q tt (mkSt (rs s) (tr s) (Some m)) -> wp (set_arg m) Q X s.
  Proof. exact (fun H => H). Qed.
  Lemma wp_when b (m : M unit) (Q : unit -> St -> Prop) (X : Exn -> St -> Prop) s :
    (b = true -> wp m Q X s) -> (b = false -> Q tt s) -> wp (when b m) Q X s.
  Proof. intros H1 H2; destruct b; [apply H1|apply wp_ret, H2]; reflexivity. Qed.
  Lemma wp_raise_if b e (Q : unit -> St -> Prop) (X : Exn -> St -> Prop) s :
    (b = true -> X e s) -> (b = false -> Q tt s) -> wp (raise_if b e) Q X s.
  Proof. intros H1 H2; destruct b; [exact (H1 eq_refl)|exact (H2 eq_refl)]. Qed.

  Lemma wp_mapM {A B} (f : A -> M B) (l : list A) (I : list A -> list B -> St -> Prop)
      (X : Exn -> St -> Prop) :
    forall done bs s, I done bs s ->
    (forall pre a post bs s, l = pre ++ a :: post -> I (done ++ pre) bs s ->
        wp (f a) (fun b s' => I (done ++ pre ++ [a]) (bs ++ [b]) s') X s) ->
    wp (mapM f l) (fun bs' s' => I (done ++ l) (bs ++ bs') s') X s.
  Proof.
    induction l as [|a l IH]; intros done bs s Hi H; cbn.
    - apply wp_ret; cbn beta; rewrite !app_nil_r; exact Hi.
    - apply wp_bind. eapply wp_conseq; [apply (H [] a l bs s); [reflexivity|rewrite app_nil_r; exact Hi]| |auto].
      cbn; intros b s' Hb. apply wp_bind.
      eapply wp_conseq; [apply (IH (done ++ [a]) (bs ++ [b]) s')| |auto].
      + exact Hb.
      + intros pre a' post bs' s'' Hl Hi'. rewrite <- app_assoc in Hi' |- *; cbn in Hi' |- *.
        apply (H (a :: pre) a' post bs' s''); [rewrite Hl; reflexivity|exact Hi'].
      + cbn; intros bs' s'' Hr. apply wp_ret. rewrite <- !app_assoc in Hr; exact Hr.
  Qed.

  Lemma wp_foldM {A B} (f : A -> B -> M A) (l : list B) (I : list B -> A -> St -> Prop)
      (X : Exn -> St -> Prop) :
    forall done acc s, I done acc s ->
    (forall pre b post a s, l = pre ++ b :: post -> I (done ++ pre) a s ->
        wp (f a b) (fun a' s' => I (done ++ pre ++ [b]) a' s') X s) ->
    wp (foldM f acc l) (fun a' s' => I (done ++ l) a' s') X s.
  Proof.
    induction l as [|b l IH]; intros done acc s Hi H; cbn.
    - apply wp_ret; cbn beta; rewrite app_nil_r; exact Hi.
    - apply wp_bind. eapply wp_conseq; [apply (H [] b l acc s); [reflexivity|rewrite app_nil_r; exact Hi]| |auto].
      cbn; intros a' s' Ha.
      eapply wp_conseq; [apply (IH (done ++ [b]) a' s')| |auto].
      + exact Ha.
      + intros pre b' post a s'' Hl Hi'. rewrite <- app_assoc in Hi' |- *; cbn in Hi' |- *.
        apply (H (b :: pre) b' post a s''); [rewrite Hl; reflexivity|exact Hi'].
      + cbn; intros a'' s'' Hr. rewrite <- app_assoc in Hr; exact Hr.
  Qed.

  (** ** Rule for the main loop.
      [I it s st]: after [it] iterations; [J it s c st]: after the generation (before the
      callback); [K it s c st]: after the callback. *)
  Lemma drive_rule {S} (d : Drv S) (cb : bool) (mx : Z)
      (I : Z -> S -> St -> Prop) (J K : Z -> S -> option Z -> St -> Prop)
      (X : Exn -> St -> Prop) :
    (forall it s st, I it s st ->
        wp (d_step d (it + 1) s)
           (fun sc st' => J (it + 1)%Z (fst sc) (snd sc) st' /\
                          (snd sc = None -> (it + 1 < mx)%Z)) X st) ->
    (forall it s c st, cb = false -> J it s c st -> K it s c st) ->
    (forall it s c w w' t b, cb = true -> J it s c (mkSt w t b) ->
        K it s c (mkSt w' (t ++ [ECb (d_pop d s) (cb_state d it s) None]) b)) ->
    (forall it s c w w' t b n, cb = true -> J it s c (mkSt w t b) ->
        X (UserError n) (mkSt w' (t ++ [ECb (d_pop d s) (cb_state d it s) (Some n)]) b)) ->
    (forall it s st, K it s None st ->
        wp (d_post d it s) (fun s' st' => I it s' st') X st) ->
    (forall it s c st, K it s (Some c) st -> exists m, message c = Some m) ->
    forall fl it s st,
      I it s st -> (Z.to_nat (mx - it) < fl)%nat \/ ((mx <= it + 1)%Z /\ (1 <= fl)%nat) ->
      wp (drive d cb fl it s)
         (fun r st' => exists it' s' c m,
              (it < it')%Z /\ K it' s' (Some c) st' /\ message c = Some m /\
              r = {| r_x := d_x d s'; r_success := (0 <=? c)%Z; r_status := c;
                     r_message := m; r_fun := d_fun d s'; r_nfev := d_nfev d it' s';
                     r_nit := it'; r_all := d_rec d s' |}) X st.
  Proof.
    intros Hstep Hnocb Hcb Hcbx Hpost Hmsg.
    induction fl as [|fl IH]; intros it s st Hi Hfl; [lia|].
    cbn [drive]. apply wp_bind.
    eapply wp_conseq; [apply (Hstep it s st Hi)| |auto].
    intros [s' c] st' [HJ Hc]; cbn [fst snd] in *.
    apply wp_bind. 
    assert (HK : forall st'', K (it + 1)%Z s' c st'' ->
      wp match c with
         | Some c0 => result d (it + 1) s' c0
         | None => s0 <- d_post d (it + 1) s';; drive d cb fl (it + 1) s0
         end
         (fun r st' => exists it' s' c m,
              (it < it')%Z /\ K it' s' (Some c) st' /\ message c = Some m /\
              r = {| r_x := d_x d s'; r_success := (0 <=? c)%Z; r_status := c;
                     r_message := m; r_fun := d_fun d s'; r_nfev := d_nfev d it' s';
                     r_nit := it'; r_all := d_rec d s' |}) X st'').
    { intros st'' HK. destruct c as [c|].
      - destruct (Hmsg _ _ _ _ HK) as [m Hm]. unfold result. rewrite Hm. cbn.
        apply wp_bind, wp_ret, wp_ret. exists (it + 1)%Z, s', c, m. repeat split; auto; lia.
      - apply wp_bind. eapply wp_conseq; [apply (Hpost _ _ _ HK)| |auto].
        cbn; intros s2 st2 Hi2. specialize (Hc eq_refl).
        eapply wp_conseq; [apply (IH _ _ _ Hi2); left; lia| |auto].
        cbn; intros r st3 (it' & s3 & c3 & m3 & Hit & Hr); exists it', s3, c3, m3.
        split; [lia|exact Hr]. }
    apply wp_when; intros Hcbv.
    - destruct st' as [w t b]. apply wp_call_cb; cbn.
      + intros w' _. apply HK. eapply Hcb; eauto.
      + intros n w' _. eapply Hcbx; eauto.
    - apply HK. apply Hnocb; auto.
  Qed.
End WP.
Arguments wp {N E A} m Q X s : simpl never.
