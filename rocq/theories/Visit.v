(** The states a run passes through at the end of its iterations. *)
From Verif Require Import Base Num Env Common.

Section Gives.
  Context {N : Num} {E : Env N}.
  (** every value that [m] can return satisfies [Q] *)
  Definition gives {A} (m : M A) (Q : A -> Prop) : Prop := forall w a w', m w = (inl a, w') -> Q a.

  Lemma gives_any {A} (m : M A) : gives m (fun _ => True).
  Proof. intros w a w' _. exact I. Qed.
  Lemma gives_ret {A} (a : A) (Q : A -> Prop) : Q a -> gives (ret a) Q.
  Proof. intros H w b w' Hb. injection Hb as <- <-. exact H. Qed.
  Lemma gives_raise {A} e (Q : A -> Prop) : gives (raise e) Q.
  Proof. intros w b w' Hb. discriminate. Qed.
  Lemma gives_bind {A B} (m : M A) (k : A -> M B) (R : A -> Prop) (Q : B -> Prop) :
    gives m R -> (forall a, R a -> gives (k a) Q) -> gives (bind m k) Q.
  Proof.
    intros Hm Hk w b w' Hb. unfold bind in Hb. destruct (m w) as [[a|e] w1] eqn:E1; [|discriminate].
    exact (Hk a (Hm w a w1 E1) w1 b w' Hb).
  Qed.
  Lemma gives_conseq {A} (m : M A) (Q R : A -> Prop) : gives m Q -> (forall a, Q a -> R a) -> gives m R.
  Proof. intros H H1 w a w' Ha. apply H1, (H w a w' Ha). Qed.
  Lemma gives_draw {A} (f : RNG -> A * RNG) (Q : A -> Prop) : (forall r, Q (fst (f r))) -> gives (draw f) Q.
  Proof.
    intros H w a w' Ha. unfold draw in Ha. specialize (H (fst (rs w))). destruct (f (fst (rs w))) as [v r].
    injection Ha as <- _. exact H.
  Qed.
  Lemma gives_replicateM {A} n (m : M A) (Q : A -> Prop) : gives m Q ->
    gives (replicateM n m) (fun l => length l = n /\ Forall Q l).
  Proof.
    intros H. induction n as [|n IH]; cbn [replicateM]; [apply gives_ret; auto|].
    eapply gives_bind; [exact H|]. intros a Ha. eapply gives_bind; [exact IH|]. intros l [Hl HQ].
    apply gives_ret. cbn. auto.
  Qed.
  Lemma gives_raise_if b e : gives (raise_if b e) (fun _ => b = false).
  Proof. unfold raise_if. destruct b; [apply gives_raise|apply gives_ret; reflexivity]. Qed.
  Lemma gives_orelse {A} (o : option A) e (Q : A -> Prop) : (forall a, o = Some a -> Q a) -> gives (orelse o e) Q.
  Proof. intros H. destruct o; [apply gives_ret; auto|apply gives_raise]. Qed.
End Gives.

Section Visit.
  Context {N : Num} {E : Env N}.
  Context {S : Type} (d : Drv S) (cb : bool).

  (** Iteration [it] of the loop of [drive], started in [w]. *)
  Definition iterate (it : Z) (s : S) : M (S * option Z) :=
    '(s, st) <- d_step d it s ;;
    when cb (call_cb (d_pop d s) (cb_state d it s)) ;;;
    ret (s, st).

  (** [visited Q it s w j t]: the loop, at the end of iteration [it] in state [s], reaches the end of
      iteration [j] in state [t]; all states at the ends of the iterations between satisfy [Q]. *)
  Inductive visited (Q : S -> Prop) : Z -> S -> St -> Z -> S -> Prop :=
  | vis_here it s w t st w' :
      d_step d (it + 1) s w = (inl (t, st), w') -> visited Q it s w (it + 1) t
  | vis_next it s w s1 w1 s2 w2 j t :
      iterate (it + 1) s w = (inl (s1, None), w1) -> Q s1 ->
      d_post d (it + 1) s1 w1 = (inl s2, w2) ->
      visited Q (it + 1) s2 w2 j t -> visited Q it s w j t.

  Lemma visited_inv (Q : S -> Prop) (Inv Post : Z -> S -> Prop) :
    (forall it s, Inv it s -> gives (d_step d (it + 1) s) (fun r => Post (it + 1)%Z (fst r))) ->
    (forall it s, Post it s -> Q s -> gives (d_post d it s) (Inv it)) ->
    forall it s w j t, visited Q it s w j t -> Inv it s -> Post j t.
  Proof.
    intros Hs Hp it s w j t HV. induction HV as [it s w t st w' H|it s w s1 w1 s2 w2 j t H HQ H2 HV IH]; intros HI.
    - exact (Hs _ _ HI _ _ _ H).
    - apply IH. refine (Hp _ _ _ HQ _ _ _ H2).
      unfold iterate, bind in H. destruct (d_step d (it + 1) s w) as [[[s' st']|e] w'] eqn:E1; [|discriminate].
      destruct (when cb _ w') as [[[]|e] w3]; [|discriminate]. unfold ret in H. injection H as <- -> <-.
      exact (Hs _ _ HI _ _ _ E1).
  Qed.

  (** What the loop returns is computed from the last state visited. *)
  Lemma drive_visits (fuel : nat) it s w r w' : drive d cb fuel it s w = (inl r, w') ->
    exists t, visited (fun _ => True) it s w (r_nit r) t /\ r_x r = d_x d t /\ r_fun r = d_fun d t /\
      r_nfev r = d_nfev d (r_nit r) t.
  Proof.
    revert it s w. induction fuel as [|k IH]; intros it s w H; cbn [drive] in H; [discriminate|].
    unfold bind in H. destruct (d_step d (it + 1) s w) as [[[s1 st]|e] w1] eqn:E1; [|discriminate].
    destruct (when cb _ w1) as [[[]|e] w2] eqn:E2; [|discriminate].
    destruct st as [c|].
    - unfold result, bind in H. destruct (orelse _ _ w2) as [[msg|e] w3]; [|discriminate]. unfold ret in H. injection H as <- _.
      cbn. exists s1. split; [eapply vis_here; exact E1|]. auto.
    - destruct (d_post d (it + 1) s1 w2) as [[s2|e] w3] eqn:E3; [|discriminate].
      destruct (IH _ _ _ H) as (t & HV & HR). exists t. split; [|exact HR].
      eapply vis_next; [|exact I|exact E3|exact HV].
      unfold iterate, bind. rewrite E1, E2. reflexivity.
  Qed.
End Visit.
