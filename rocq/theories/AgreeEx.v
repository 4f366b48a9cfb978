(** C79 in exact arithmetic: no run can tell that its result is a minimum; and runs that meet the
    hypotheses of C79. *)
From Coq Require Import Reals Lra Floats.
From Verif Require Import Base Num NumR NumE NumF Env Common DE CPSO NA Mat CMAES VDCMA Sample Hoare EvalRules Gen Steps Best
  Inst Ranks Refuse Agree Demo ExPop RefuseEx.
Open Scope nat_scope.

(** ** Exact arithmetic *)
Lemma avoid (l : list R) : forall lo hi, (lo < hi)%R -> exists c, (lo < c < hi)%R /\ ~ In c l.
Proof.
  induction l as [|a l IH]; intros lo hi H.
  - exists ((lo + hi) / 2)%R. split; [lra|intros []].
  - destruct (Rlt_dec lo a) as [Ha|Ha].
    + destruct (IH lo (Rmin a hi)) as (c & Hc & Hn); [unfold Rmin; destruct (Rle_dec a hi); lra|].
      assert (Hm : (Rmin a hi <= a)%R /\ (Rmin a hi <= hi)%R) by (split; [apply Rmin_l|apply Rmin_r]).
      exists c. split; [lra|]. intros [->|Hi]; [lra|exact (Hn Hi)].
    + destruct (IH lo hi H) as (c & Hc & Hn). exists c. split; [exact Hc|]. intros [->|Hi]; [lra|exact (Hn Hi)].
Qed.
Definition heads (t : list (@event EArith)) : list R :=
  flat_map (fun e => match e with EEval (Fin a :: _) _ => [a] | _ => [] end) t.
Lemma unequal t c z : ~ In c (heads t) ->
  forall x a, In (EEval x a) t -> @array_equal ENum x (Fin c :: z) = false.
Proof.
  intros Hn x a Hi. destruct x as [|[b| | |] x]; try reflexivity; try (unfold array_equal; cbn; apply andb_false_r).
  unfold array_equal. cbn. destruct (Reqb b c) eqn:Hb; [|apply andb_false_r].
  apply Reqb_true in Hb. exfalso. apply Hn. subst b. apply in_flat_map.
  exists (@EEval EArith (Fin c :: x) a). split; [exact Hi|left; reflexivity].
Qed.

Lemma equal_self (l : list R) : @array_equal ENum (map Fin l) (map Fin l) = true.
Proof.
  unfold array_equal. rewrite Nat.eqb_refl. cbn. induction l as [|k l IH]; cbn; [reflexivity|].
  rewrite IH. replace (Reqb k k) with true; [reflexivity|]. symmetry. apply Reqb_true. reflexivity.
Qed.

(** Every run of an optimizer that returns leaves some point inside the box (in fact inside any
    box) where the objective may have any value, in particular a lower one than the result, without
    the run being any different. *)
Theorem C79_no_certificate (E : Env ENum) (c : OptCall) w a0 r s (box : list (R * R)) :
  @exec ENum E _ (opt_run c) w a0 = (inl r, s) ->
  box <> [] -> Forall (fun b => (fst b < snd b)%R) box ->
  exists z : list R,
    Forall2 (fun x b => (fst b < x < snd b)%R) z box /\
    forall v : er, exists s',
      @exec ENum (@other_fun ENum E (@needle ENum E (map Fin z) v)) _ (opt_run c) w a0 = (inl r, s') /\
      tr s' = tr s /\
      (forall w', fst (@e_fun ENum (@other_fun ENum E (@needle ENum E (map Fin z) v)) (map Fin z) w') = inl v).
Proof.
  intros Hx Hb HB. destruct box as [|[lo hi] box]; [congruence|]. inversion HB as [|? ? Hl HB']; subst. cbn in Hl.
  destruct (avoid (heads (tr s)) lo hi Hl) as (x & Hx1 & Hx2).
  exists (x :: map (fun b => (fst b + snd b) / 2)%R box). split.
  { constructor; [exact Hx1|]. clear -HB'. induction HB' as [|b box H _ IH]; cbn; constructor; [lra|exact IH]. }
  intro v. cbn [map].
  destruct (@C79_needle ENum E c (Fin x :: map Fin (map (fun b => (fst b + snd b) / 2)%R box)) v w a0 (inl r) s Hx)
    as (s' & H1 & _ & H2 & _).
  { intros y a. apply unequal, Hx2. }
  exists s'. split; [exact H1|]. split; [exact H2|]. intro w'.
  change (fst (@needle ENum E (map Fin (x :: map (fun b => (fst b + snd b) / 2)%R box)) v
                 (map Fin (x :: map (fun b => (fst b + snd b) / 2)%R box)) w') = inl v).
  unfold needle. rewrite equal_self. reflexivity.
Qed.

(** ** Binary64 runs *)
Definition needle_at : list float := [0.125; 0.125]%float.
Definition EP : Env (FNum DF) := @other_fun (FNum DF) ES (@needle (FNum DF) ES needle_at (-1000)%float).
Definition cma79 : @CMAArgs (FNum DF) :=
  @mkCMAArgs (FNum DF)
    (@mkArgs (FNum DF) true (b11 DF) (Some (@D1 (FArith DF) [0.5; 0.75]%float)) true 4 4 None (-1)%float (-1)%float
             None 1 None false 1%float CbFun)
    0.5%float 0.5%float.
Definition w79 : Script * unit :=
  (mkScript [] [0; 1; -0.5; 0.25; 1; 0.5; -1; -1; 1; 0; -0.25; 0.5; 0.5; 1; -1; -0.5; 1; 0.5; 0; -1; 0.25; 1; -0.5; 0;
                0; 1; -0.5; 0.25; 1; 0.5; -1; -1; 1; 0]%float [] [], tt).
Definition apart (t : list (@event (FArith DF))) : bool :=
  forallb (fun e => match e with EEval x _ => negb (@array_equal (FNum DF) x needle_at) | _ => true end) t.
(** The run returns a value above -1000 after 4 iterations, and the objective that is -1000 at the
    needle gives the same run. *)
Definition Missed (c : @OptCall (FNum DF)) (w : Script * unit) : Prop :=
  exists r s s',
    @exec (FNum DF) ES _ (opt_run c) w None = (inl r, s) /\ r_nit r = 4%Z /\
    (forall x a, In (EEval x a) (tr s) -> @array_equal (FNum DF) x needle_at = false) /\
    @exec (FNum DF) EP _ (opt_run c) w None = (inl r, s') /\ tr s' = tr s /\
    PrimFloat.ltb (-1000) (r_fun r) = true.
Lemma missed (c : @OptCall (FNum DF)) w :
  match @exec (FNum DF) ES _ (opt_run c) w None with
  | (inl r, s) => apart (tr s) && Z.eqb (r_nit r) 4 && PrimFloat.ltb (-1000) (r_fun r) | _ => false end = true ->
  Missed c w.
Proof.
  intro H. unfold Missed. destruct (@exec (FNum DF) ES _ (opt_run c) w None) as [[r|e] s] eqn:Hx; [|discriminate].
  rewrite !andb_true_iff, Z.eqb_eq in H. destruct H as [[H1 H2] H3].
  assert (Ha : forall x a, In (EEval x a) (tr s) -> @array_equal (FNum DF) x needle_at = false).
  { intros x a Hi. unfold apart in H1. rewrite forallb_forall in H1. specialize (H1 _ Hi). cbn in H1.
    apply negb_true_iff in H1. exact H1. }
  destruct (@C79_needle (FNum DF) ES c needle_at (-1000)%float w None (inl r) s Hx Ha) as (s' & Hs & _ & Ht & _).
  exists r, s, s'. repeat split; assumption.
Qed.
(** The hypotheses of C79_unseen and C79_needle are met by runs of de, pso and cmaes. *)
Theorem C79_missed :
  Missed (PDe (de78 "deferred")) w0 /\ Missed (PPso (pso78 "immediate")) w0 /\ Missed (PCmaes cma79) w79.
Proof. split; [|split]; (apply missed; vm_compute; reflexivity). Qed.

(** An objective that returns NaN above 1: the two runs of de part at the first such point. *)
Definition above1 (x : list float) : bool :=
  match f_sphere x with inl y => negb (PrimFloat.leb y 1) | inr _ => false end.
Theorem C79_parted_run : exists r s r' s',
  @exec (FNum DF) ES _ (opt_run (PDe (de78 "deferred"))) w0 None = (r, s) /\
  @exec (FNum DF) EN _ (opt_run (PDe (de78 "deferred"))) w0 None = (r', s') /\
  @Parted (FNum DF) above1 (tr s) (tr s').
Proof.
  pose proof C78_runs as [(r & s & s' & H1 & _ & _ & _ & Hc & H2 & _ & Hc') _].
  exists (inl r), s, (inl r), s'. split; [exact H1|]. split; [exact H2|].
  destruct (@C79_optimizers (FNum DF) ES above1 fn_nan) with (c := PDe (de78 "deferred")) (w := w0) (a0 := @None (@matrix (FArith DF)))
    (r := @inl (@OptRes (FNum DF)) Exn r) (s := s) (r' := @inl (@OptRes (FNum DF)) Exn r) (s' := s') as [(_ & _ & Ht & _)|HP].
  - intros x w Hx. unfold fn_nan, ES, above1 in *. cbn [e_fun DemoEnv]. unfold f_sphere in *.
    apply negb_false_iff in Hx. rewrite Hx. reflexivity.
  - exact H1.
  - exact H2.
  - exfalso. assert (He : evals (tr s') = evals (tr s)) by (f_equal; exact Ht). rewrite He, Hc in Hc'. discriminate.
  - exact HP.
Qed.
