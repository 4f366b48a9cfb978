(** C66: a callback with a memory of its own, watched and unwatched runs in binary64. *)
From Coq Require Import Floats.
From Verif Require Import Base Num NumF Env Common DE CPSO NA Mat CMAES VDCMA Sample Hoare Disc Rel
  Watch Demo ExPop ExCma ExSamp Mono MonoEx.

(** The callback counts its calls and raises at call number [k]; [greedy]: it also resets the
    random generator. *)
Definition count_cb (k : nat) (greedy : bool) (w : Script * nat) : option nat * (Script * nat) :=
  (if (snd w =? k)%nat then Some 9%nat else None,
   (if greedy then noscript else fst w, S (snd w))).
Definition EC (k : nat) (greedy : bool) : Env ND :=
  @mkEnv ND Script nat
     (fun _ => noscript)
     (d_rand) (d_randn) (d_perm) (d_randint)
     (fun x w => (f_levels x, w))
     (fun _ _ w => count_cb k greedy w) (fun _ _ w => count_cb k greedy w)
     (fun n _ => rev (seq 0 n))
     0 1 (fun _ X => X) (fun _ _ f => f)
     d_argsort d_percentile d_median d_eigh (fun n => repeat nan n).
Definition KC (w1 w2 : Script * nat) : Prop := fst w1 = fst w2.

Theorem C66_counter_harmless k : @Harmless ND (EC k false) KC.
Proof.
  constructor; cbn; unfold KC; intros; cbn in *; auto.
Qed.

Definition wc : Script * nat := (fst w_levels, 0%nat).
Definition eight : list (@AnyCall ND) :=
  [@RunDE ND de_levels; @RunCPSO ND cpso_levels;
   @RunPSO ND (@mkPSOArgs ND (pa cpso_levels) 0.75%float 4%float 4%float "immediate");
   @RunNA ND na_levels; @RunCMAES ND (cma_levels 4); @RunVDCMA ND (cma_levels 4);
   @RunMCMC ND mc1; @RunHMC ND hm1].
Definition ncb {E : Env ND} (s : @St ND E) : nat :=
  (length (@tr ND E s) - length (@calls ND (@tr ND E s)))%nat.

(** Each of the eight entry points: the run with history and callback (at least three calls of
    it) and the run without both return, and agree by the theorem. *)
Definition Agree (c : @AnyCall ND) (w : Script * nat) : Prop :=
  exists r s r' s',
    @exec ND (EC 100 false) _ (@outcome ND (EC 100 false) (@watch ND true 1%float CbFun c)) w None = (inl r, s) /\
    @exec ND (EC 100 false) _ (@outcome ND (EC 100 false) (@watch ND false 0%float CbNone c)) w None = (inl r', s') /\
    (3 <= @ncb (EC 100 false) s)%nat /\ @ncb (EC 100 false) s' = 0%nat /\
    (3 <= length (@tr ND (EC 100 false) s'))%nat /\
    same_outcome r r' /\ @calls ND (@tr ND (EC 100 false) s) = @tr ND (EC 100 false) s'.
Lemma agree c w :
  match @exec ND (EC 100 false) _ (@outcome ND (EC 100 false) (@watch ND true 1%float CbFun c)) w None,
        @exec ND (EC 100 false) _ (@outcome ND (EC 100 false) (@watch ND false 0%float CbNone c)) w None with
  | (inl _, s), (inl _, s') =>
      (3 <=? @ncb (EC 100 false) s)%nat && (@ncb (EC 100 false) s' =? 0)%nat &&
      (3 <=? length (@tr ND (EC 100 false) s'))%nat
  | _, _ => false
  end = true -> Agree c w.
Proof.
  intros H. unfold Agree.
  destruct (@exec ND (EC 100 false) _ (@outcome ND (EC 100 false) (@watch ND true 1%float CbFun c)) w None)
    as [[r|e] s] eqn:H1; [|discriminate].
  destruct (@exec ND (EC 100 false) _ (@outcome ND (EC 100 false) (@watch ND false 0%float CbNone c)) w None)
    as [[r'|e'] s'] eqn:H2; [|discriminate].
  rewrite !andb_true_iff, !Nat.leb_le, Nat.eqb_eq in H. destruct H as [[A1 A2] A3].
  destruct (@C66_same_search ND (EC 100 false) KC c true 1%float CbFun false 0%float CbNone w None r r' s s'
              (C66_counter_harmless 100) eq_refl H1 H2) as [Q [Q2 _]].
  exists r, s, r', s'. repeat (split; [first [reflexivity|assumption]|]).
  rewrite Q2. unfold ncb in A2.
  apply calls_all. exact A2.
Qed.
Theorem C66_hypotheses : Forall (fun c => Agree c wc) eight.
Proof.
  unfold eight. repeat (apply Forall_cons; [apply agree; vm_compute; reflexivity|]). apply Forall_nil.
Qed.

(** ** The watching can end a run *)
(** The callback raises at its third call: the run stops there, the unwatched one goes on. *)
Theorem C66_callback_stops : Forall (fun c =>
  exists s r s' rest,
    @exec ND (EC 2 false) _ (@outcome ND (EC 2 false) (@watch ND false 0%float CbFun c)) wc None = (inr (UserError 9), s) /\
    @exec ND (EC 2 false) _ (@outcome ND (EC 2 false) (@watch ND false 0%float CbNone c)) wc None = (inl r, s') /\
    @calls ND (@tr ND (EC 2 false) s') = @calls ND (@tr ND (EC 2 false) s) ++ rest) eight.
Proof.
  assert (H : forall c,
    match @exec ND (EC 2 false) _ (@outcome ND (EC 2 false) (@watch ND false 0%float CbFun c)) wc None,
          @exec ND (EC 2 false) _ (@outcome ND (EC 2 false) (@watch ND false 0%float CbNone c)) wc None with
    | (inr (UserError 9), _), (inl _, _) => true | _, _ => false end = true ->
  exists s r s' rest,
    @exec ND (EC 2 false) _ (@outcome ND (EC 2 false) (@watch ND false 0%float CbFun c)) wc None = (inr (UserError 9), s) /\
    @exec ND (EC 2 false) _ (@outcome ND (EC 2 false) (@watch ND false 0%float CbNone c)) wc None = (inl r, s') /\
    @calls ND (@tr ND (EC 2 false) s') = @calls ND (@tr ND (EC 2 false) s) ++ rest).
  { intros c H.
    destruct (@exec ND (EC 2 false) _ (@outcome ND (EC 2 false) (@watch ND false 0%float CbFun c)) wc None)
      as [[r|e] s] eqn:H1; [discriminate|].
    destruct (@exec ND (EC 2 false) _ (@outcome ND (EC 2 false) (@watch ND false 0%float CbNone c)) wc None)
      as [[r'|e'] s'] eqn:H2.
    - destruct e; try discriminate.
      do 10 (destruct n as [|n]; try discriminate).
      destruct (@C66_only_own ND (EC 2 false) KC c false 0%float CbFun 0%float wc None r' s' (UserError 9) s
                  (C66_counter_harmless 2) eq_refl H2 H1) as [_ [rest Hr]].
      exists s, r', s', rest. auto.
    - destruct e; try discriminate. do 10 (destruct n as [|n]; try discriminate). }
  unfold eight. repeat (apply Forall_cons; [apply H; vm_compute; reflexivity|]). apply Forall_nil.
Qed.

(** return_all with maxiter = 1: de fails in its second iteration, which has no slot. *)
Definition de_short : @DEArgs ND :=
  @mkDEArgs ND
    (demo_args DF (Some (@D2 (FArith DF) 2 [[0.5; 0.5]; [0.75; -0.5]; [-1; 1]; [0.25; 0.75]]%float)) 1 4 (-1)%float 0.5%float
       (Some "Random"%string) true 1%float) 0.5%float 0.5%float "rand1bin" "immediate".
Theorem C66_return_all_stops :
  (exists s, @exec ND (EC 100 false) _ (@outcome ND (EC 100 false) (@watch ND true 1%float CbNone (@RunDE ND de_short))) wc None
             = (inr IndexError, s)) /\
  (exists r s, @exec ND (EC 100 false) _ (@outcome ND (EC 100 false) (@watch ND false 1%float CbNone (@RunDE ND de_short))) wc None
               = (inl r, s)).
Proof.
  split.
  - destruct (raised (E := EC 100 false) (@outcome ND (EC 100 false) (@watch ND true 1%float CbNone (@RunDE ND de_short)))
                wc None IndexError (fun _ => true)) as [s [H _]]; [vm_compute; reflexivity|]. exists s. exact H.
  - destruct (ran (E := EC 100 false) (@outcome ND (EC 100 false) (@watch ND false 1%float CbNone (@RunDE ND de_short)))
                wc None (fun _ _ => true)) as [r [s [H _]]]; [vm_compute; reflexivity|]. exists r, s. exact H.
Qed.

(** With an infinite verbosity the size of the record is an OverflowError, with nan a ValueError. *)
Theorem C66_verbosity_stops :
  (exists s, @exec ND (EC 100 false) _ (@outcome ND (EC 100 false) (@watch ND true infinity CbNone (@RunDE ND de_short))) wc None
             = (inr OverflowError, s)) /\
  (exists s, @exec ND (EC 100 false) _ (@outcome ND (EC 100 false) (@watch ND true nan CbNone (@RunDE ND de_short))) wc None
             = (inr ValueError, s)).
Proof.
  split.
  - destruct (raised (E := EC 100 false) (@outcome ND (EC 100 false) (@watch ND true infinity CbNone (@RunDE ND de_short)))
                wc None OverflowError (fun _ => true)) as [s [H _]]; [vm_compute; reflexivity|]. exists s. exact H.
  - destruct (raised (E := EC 100 false) (@outcome ND (EC 100 false) (@watch ND true nan CbNone (@RunDE ND de_short)))
                wc None ValueError (fun _ => true)) as [s [H _]]; [vm_compute; reflexivity|]. exists s. exact H.
Qed.

(** ** A callback that touches the random generator is not harmless *)
Theorem C66_harmless_needed :
  (exists r s r' s',
    @exec ND (EC 100 true) _ (@outcome ND (EC 100 true) (@watch ND false 0%float CbFun (@RunCMAES ND (cma_levels 4)))) wc None
      = (inl r, s) /\
    @exec ND (EC 100 true) _ (@outcome ND (EC 100 true) (@watch ND false 0%float CbNone (@RunCMAES ND (cma_levels 4)))) wc None
      = (inl r', s') /\ ~ same_outcome r r') /\
  (forall K : Script * nat -> Script * nat -> Prop, (forall w, K w w) -> ~ @Harmless ND (EC 100 true) K).
Proof.
  assert (H : exists r s r' s',
    @exec ND (EC 100 true) _ (@outcome ND (EC 100 true) (@watch ND false 0%float CbFun (@RunCMAES ND (cma_levels 4)))) wc None
      = (inl r, s) /\
    @exec ND (EC 100 true) _ (@outcome ND (EC 100 true) (@watch ND false 0%float CbNone (@RunCMAES ND (cma_levels 4)))) wc None
      = (inl r', s') /\ ~ same_outcome r r').
  { assert (H : match @exec ND (EC 100 true) _ (@outcome ND (EC 100 true) (@watch ND false 0%float CbFun (@RunCMAES ND (cma_levels 4)))) wc None,
      @exec ND (EC 100 true) _ (@outcome ND (EC 100 true) (@watch ND false 0%float CbNone (@RunCMAES ND (cma_levels 4)))) wc None with
      | (inl (ROpt r), _), (inl (ROpt r'), _) =>
         negb (forallb (fun b => b) (map2 (fun x y => PrimFloat.eqb x y || negb (PrimFloat.eqb x x))%bool (r_x r) (r_x r')))
      | _, _ => false end = true) by (vm_compute; reflexivity).
    destruct (@exec ND (EC 100 true) _ (@outcome ND (EC 100 true) (@watch ND false 0%float CbFun (@RunCMAES ND (cma_levels 4)))) wc None)
      as [[r|e] s] eqn:H1; [|discriminate].
    destruct (@exec ND (EC 100 true) _ (@outcome ND (EC 100 true) (@watch ND false 0%float CbNone (@RunCMAES ND (cma_levels 4)))) wc None)
      as [[r'|e'] s'] eqn:H2; [|destruct r; discriminate].
    exists r, s, r', s'. split; [reflexivity|]. split; [reflexivity|]. intros HS.
    destruct r as [r|r]; [|discriminate]. destruct r' as [r'|r']; [|discriminate].
    destruct HS as [HS _]. rewrite HS in H. clear - H. apply negb_true_iff in H.
    assert (HT : forall l : list float, forallb (fun b => b)
       (map2 (fun x y => PrimFloat.eqb x y || negb (PrimFloat.eqb x x))%bool l l) = true).
    { induction l as [|x l IH]; [reflexivity|]. cbn. rewrite IH. destruct (PrimFloat.eqb x x); reflexivity. }
    change (list T) with (list float) in *. rewrite HT in H. discriminate. }
  split; [exact H|]. intros K HK HH. destruct H as (r & s & r' & s' & H1 & H2 & H3). apply H3.
  exact (proj1 (@C66_same_search ND (EC 100 true) K _ _ _ _ _ _ _ wc None r r' s s' HH (HK _) H1 H2)).
Qed.
