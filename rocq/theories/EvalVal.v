(** The values a population is given: each is one the objective can return at that row. *)
From Verif Require Import Base Num Env Common Hoare EvalRules Visit.

Lemma Forall2_from_nth {A B} (a0 : A) (b0 : B) (R : A -> B -> Prop) la lb : length la = length lb ->
  (forall i, i < length la -> R (nth i la a0) (nth i lb b0)) -> Forall2 R la lb.
Proof.
  revert lb. induction la as [|a la IH]; intros [|b lb] Hl H; try discriminate; constructor.
  - apply (H 0). cbn. lia.
  - apply IH; [cbn in Hl; lia|]. intros i Hi. apply (H (S i)). cbn. lia.
Qed.

Section EvalVal.
  Context {N : Num} {E : Env N}.

  (** [y] is a value that the objective can return at [x] (in some state of the world) *)
  Definition Val (x : vec) (y : T) : Prop := exists w, fst (e_fun x w) = inl y.

  Lemma gives_call_fun x : gives (call_fun x) (Val x).
  Proof.
    intros w y w' H. unfold call_fun in H. destruct (e_fun x (rs w)) as [[z|k] w1] eqn:Ef; [|discriminate].
    injection H as <- _. exists (rs w). rewrite Ef. reflexivity.
  Qed.

  Lemma gives_serial X : gives (eval_serial X) (Forall2 Val X).
  Proof.
    unfold eval_serial. induction X as [|x X IH]; cbn [mapM]; [apply gives_ret; constructor|].
    eapply gives_bind; [apply gives_call_fun|]. intros y Hy. eapply gives_bind; [exact IH|]. intros f Hf.
    apply gives_ret. constructor; assumption.
  Qed.

  Lemma gives_fold X order : forall done f, length f = length X ->
    Forall (fun i => i < length X) order ->
    (forall i, In i done -> Val (nth i X []) (nth i f n0)) ->
    gives (foldM (fun f i => y <- call_fun (nth i X []) ;; ret (upd i y f)) f order)
      (fun f' => length f' = length X /\ forall i, In i done \/ In i order -> Val (nth i X []) (nth i f' n0)).
  Proof.
    induction order as [|k order IH]; intros done f Hl HO HD; cbn [foldM].
    - apply gives_ret. split; [exact Hl|]. intros i [Hi|[]]. apply HD, Hi.
    - eapply gives_bind with (R := fun f1 => length f1 = length X /\ forall i, In i (k :: done) -> Val (nth i X []) (nth i f1 n0)).
      + eapply gives_bind; [apply gives_call_fun|]. intros y Hy. apply gives_ret.
        split; [rewrite upd_length; exact Hl|]. intros i Hi.
        destruct (Nat.eq_dec i k) as [->|Hne].
        * rewrite upd_nth_same; [exact Hy|]. rewrite Hl. inversion HO; assumption.
        * rewrite upd_nth_other by congruence. apply HD. destruct Hi as [Hi|Hi]; [congruence|exact Hi].
      + intros f1 [Hl1 HD1]. inversion HO as [|? ? _ HO']; subst.
        eapply gives_conseq; [apply (IH (k :: done) f1 Hl1 HO' HD1)|]. intros f' [H1 H2]. split; [exact H1|].
        intros i [Hi|[Hi|Hi]]; apply H2; [left; right; exact Hi|left; left; exact Hi|right; exact Hi].
  Qed.

  Lemma gives_joblib X : SchedOK -> gives (eval_joblib X) (Forall2 Val X).
  Proof.
    intros HS. unfold eval_joblib. eapply gives_bind with (R := fun o => Permutation o (seq 0 (length X))).
    - intros w o w' H. injection H as <- _. apply HS.
    - intros o Ho. cbv beta in Ho. eapply gives_conseq; [apply (gives_fold X o [] (repeat n0 (length X)))|].
      + apply repeat_length.
      + apply Forall_forall. intros i Hi. apply (Permutation_in _ Ho), in_seq in Hi. destruct Hi as [_ Hi]. exact Hi.
      + intros i [].
      + intros f [Hl HF]. apply (Forall2_from_nth [] n0); [symmetry; exact Hl|].
        intros i Hi. apply HF. right. apply (Permutation_in _ (Permutation_sym Ho)), in_seq. split; [lia|exact Hi].
  Qed.

  (** serial and joblib evaluation *)
  Lemma gives_eval_pop m X : ModeOK m -> m <> Mpi -> gives (eval_pop m X) (fun r => Forall2 Val X (snd r)).
  Proof.
    intros HM Hm. destruct m; cbn [eval_pop] in *; [| |contradiction].
    - eapply gives_bind; [apply gives_serial|]. intros f Hf. apply gives_ret. exact Hf.
    - eapply gives_bind; [apply gives_joblib, HM|]. intros f Hf. apply gives_ret. exact Hf.
  Qed.
End EvalVal.
