(** Two runs side by side: the same program in two environments (or two programs that differ
    in how they evaluate a population), from related states. *)
From Verif Require Import Base Num Env Common.

Section Rel.
  Context {N : Num} {E1 E2 : Env N}.
  Variable R : @St N E1 -> @St N E2 -> Prop.

  (** Both return, with [Q] between the values, or both raise the same exception; the final
      states are related again. *)
  Definition rel {A B} (m1 : @M N E1 A) (m2 : @M N E2 B) (Q : A -> B -> Prop) : Prop :=
    forall s1 s2, R s1 s2 ->
      R (snd (m1 s1)) (snd (m2 s2)) /\
      match fst (m1 s1), fst (m2 s2) with
      | inl a, inl b => Q a b
      | inr e, inr e' => e = e'
      | _, _ => False
      end.

  Lemma rel_ret {A B} (a : A) (b : B) (Q : A -> B -> Prop) : Q a b -> rel (ret a) (ret b) Q.
  Proof. intros H s1 s2 HR. split; auto. Qed.
  Lemma rel_raise {A B} e (Q : A -> B -> Prop) : rel (raise e) (raise e) Q.
  Proof. intros s1 s2 HR. split; cbn; auto. Qed.
  Lemma rel_bind {A B A' B'} (m1 : @M N E1 A) (m2 : @M N E2 B) (k1 : A -> @M N E1 A')
      (k2 : B -> @M N E2 B') Q Q' :
    rel m1 m2 Q -> (forall a b, Q a b -> rel (k1 a) (k2 b) Q') ->
    rel (bind m1 k1) (bind m2 k2) Q'.
  Proof.
    intros H Hk s1 s2 HR. unfold bind. specialize (H s1 s2 HR).
    destruct (m1 s1) as [[a|e] t1], (m2 s2) as [[b|e'] t2]; cbn in H; destruct H as [HR' H];
      try contradiction.
    - apply Hk; auto.
    - subst. split; cbn; auto.
  Qed.
  Lemma rel_conseq {A B} (m1 : @M N E1 A) (m2 : @M N E2 B) (Q Q' : A -> B -> Prop) :
    rel m1 m2 Q -> (forall a b, Q a b -> Q' a b) -> rel m1 m2 Q'.
  Proof.
    intros H HQ s1 s2 HR. destruct (H s1 s2 HR) as [H1 H2]. split; [exact H1|].
    destruct (fst (m1 s1)), (fst (m2 s2)); auto.
  Qed.
  Lemma rel_raise_if b e : rel (raise_if b e) (raise_if b e) eq.
  Proof. destruct b; [apply rel_raise | apply rel_ret; reflexivity]. Qed.
  Lemma rel_orelse {A} (o : option A) e : rel (orelse o e) (orelse o e) eq.
  Proof. destruct o; [apply rel_ret; reflexivity | apply rel_raise]. Qed.
  Lemma rel_when b (m1 : @M N E1 unit) (m2 : @M N E2 unit) :
    rel m1 m2 eq -> rel (when b m1) (when b m2) eq.
  Proof. intro H. destruct b; [exact H | apply rel_ret; reflexivity]. Qed.
  Lemma rel_np_argmin v : rel (np_argmin v) (np_argmin v) eq.
  Proof. destruct v; [apply rel_raise | apply rel_ret; reflexivity]. Qed.

  Lemma rel_replicateM {A} n (m1 : @M N E1 A) (m2 : @M N E2 A) :
    rel m1 m2 eq -> rel (replicateM n m1) (replicateM n m2) eq.
  Proof.
    intro H. induction n as [|n IH]; cbn; [apply rel_ret; reflexivity|].
    apply rel_bind with (Q := eq); [exact H|]. intros a b <-.
    apply rel_bind with (Q := eq); [exact IH|]. intros l l' <-. apply rel_ret. reflexivity.
  Qed.
  Lemma rel_mapM {A B} (f1 : A -> @M N E1 B) (f2 : A -> @M N E2 B) l :
    (forall a, In a l -> rel (f1 a) (f2 a) eq) -> rel (mapM f1 l) (mapM f2 l) eq.
  Proof.
    induction l as [|x l IH]; intro H; cbn; [apply rel_ret; reflexivity|].
    apply rel_bind with (Q := eq); [apply H; left; reflexivity|]. intros a b <-.
    apply rel_bind with (Q := eq); [apply IH; intros; apply H; right; assumption|].
    intros bs bs' <-. apply rel_ret. reflexivity.
  Qed.
  Lemma rel_foldM {A B} (f1 : A -> B -> @M N E1 A) (f2 : A -> B -> @M N E2 A) l : forall acc,
    (forall a b, rel (f1 a b) (f2 a b) eq) -> rel (foldM f1 acc l) (foldM f2 acc l) eq.
  Proof.
    induction l as [|x l IH]; intros acc H; cbn; [apply rel_ret; reflexivity|].
    apply rel_bind with (Q := eq); [apply H|]. intros a b <-. apply IH, H.
  Qed.

  Lemma rel_rec_alloc ra v p mi : rel (rec_alloc ra v p mi) (rec_alloc ra v p mi) eq.
  Proof.
    unfold rec_alloc, rec_nout. destruct ra; [|apply rel_ret; reflexivity].
    apply rel_bind with (Q := eq); [apply rel_orelse|]. intros a b <-.
    destruct (mi <? 0)%Z; [apply rel_raise | apply rel_ret; reflexivity].
  Qed.
  Lemma rel_rec_write n mi it pop pf best r :
    rel (rec_write n mi it pop pf best r) (rec_write n mi it pop pf best r) eq.
  Proof.
    unfold rec_write, rec_put. destruct n as [n|]; [|apply rel_ret; reflexivity].
    destruct r as [r|]; [|apply rel_ret; reflexivity].
    apply rel_bind with (Q := eq).
    - destruct (mi <? it)%Z; [apply rel_raise|].
      destruct (0 <? n)%Z; [|apply rel_ret; reflexivity].
      apply rel_bind with (Q := eq); [apply rel_orelse|]. intros a b <-.
      apply rel_bind with (Q := eq); [apply rel_orelse|]. intros c d <-.
      apply rel_ret. reflexivity.
    - intros a b <-. apply rel_ret. reflexivity.
  Qed.
  Lemma rel_check_pop a b :
    a_callable a = a_callable b -> a_bounds a = a_bounds b -> a_x0 a = a_x0 b ->
    a_popsize a = a_popsize b -> rel (check_pop a) (check_pop b) eq.
  Proof.
    intros H1 H2 H3 H4. unfold check_pop. rewrite H1, H2, H3, H4.
    repeat (apply rel_bind with (Q := eq); [apply rel_raise_if|]; intros ? ? _).
    apply rel_raise_if.
  Qed.
  Lemma rel_check_updating u : rel (check_updating u) (check_updating u) eq.
  Proof. apply rel_raise_if. Qed.
  Lemma rel_unpack b : rel (unpack_bounds b) (unpack_bounds b) eq.
  Proof.
    destruct b as [x|v|c m]; try apply rel_raise.
    destruct c as [|[|[|c]]]; try apply rel_raise. apply rel_ret. reflexivity.
  Qed.

  (** The loop: the states of the two drivers may be of different type, related by [K]. *)
  Definition same_view {S1 S2} (d1 : @Drv N E1 S1) (d2 : @Drv N E2 S2) (a : S1) (b : S2) : Prop :=
    d_pop d1 a = d_pop d2 b /\ d_x d1 a = d_x d2 b /\ d_fun d1 a = d_fun d2 b /\
    (forall it, d_nfev d1 it a = d_nfev d2 it b) /\ d_rec d1 a = d_rec d2 b.

  Lemma rel_drive {S1 S2} (d1 : @Drv N E1 S1) (d2 : @Drv N E2 S2) (K : S1 -> S2 -> Prop) cb :
    (forall X st, rel (call_cb X st) (call_cb X st) eq) ->
    (forall it a b, K a b ->
       rel (d_step d1 it a) (d_step d2 it b)
           (fun p q => K (fst p) (fst q) /\ snd p = snd q /\ same_view d1 d2 (fst p) (fst q))) ->
    (forall it a b, K a b -> rel (d_post d1 it a) (d_post d2 it b) K) ->
    forall n it a b, K a b -> rel (drive d1 cb n it a) (drive d2 cb n it b) eq.
  Proof.
    intros HC HS HP. induction n as [|n IH]; intros it a b HK; cbn; [apply rel_raise|].
    eapply rel_bind; [apply HS; exact HK|].
    intros [a' c] [b' c'] [HK' [Hc [V1 [V2 [V3 [V4 V5]]]]]]. cbn in *. subst c'.
    apply rel_bind with (Q := eq).
    - unfold cb_state. rewrite V1, V2, V3, V4, V5. apply rel_when, HC.
    - intros _ _ _. destruct c as [c|].
      + unfold result. rewrite V2, V3, V4, V5.
        apply rel_bind with (Q := eq); [apply rel_orelse|]. intros m m' <-.
        apply rel_ret. reflexivity.
      + eapply rel_bind; [apply HP; exact HK'|]. intros u v Huv. apply IH, Huv.
  Qed.

  Lemma rel_exec {A B} (m1 : @M N E1 A) (m2 : @M N E2 B) Q w1 w2 a1 a2 :
    rel m1 m2 Q -> R (mkSt w1 [] a1) (mkSt w2 [] a2) ->
    R (snd (exec m1 w1 a1)) (snd (exec m2 w2 a2)) /\
    match fst (exec m1 w1 a1), fst (exec m2 w2 a2) with
    | inl a, inl b => Q a b
    | inr e, inr e' => e = e'
    | _, _ => False
    end.
  Proof. intros H HR. exact (H _ _ HR). Qed.
End Rel.
