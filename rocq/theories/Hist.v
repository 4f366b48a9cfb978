(** The history of a run of DE, CPSO or NA: initial population, then generations. *)
From Verif Require Import Base Num Env Common DE CPSO NA Hoare EvalRules Gen Steps.

Section HistDefs.
  Context {N : Num} {E : Env N}.
  Local Open Scope num_scope.

  Record HParams := mkHParams {
    h_view : vec -> vec;             (* internal point -> point given to the objective *)
    h_mode : Mode; h_sync : bool; h_mx : Z; h_xtol : T; h_ftol : T; h_p : nat; h_cb : bool;
    h_nout : option Z;
    h_pop0 : matrix -> matrix;       (* what the first callback receives *)
    h_pop : Q4 -> matrix -> matrix;  (* what the later callbacks receive *)
    h_recp : Q4 -> matrix -> matrix; (* the recorded population *)
    h_recb : Q4 -> matrix -> vec -> vec * T;   (* the recorded best *)
    h_C0 : vec -> Prop;              (* initial points *)
    h_C : Q4 -> matrix -> vec -> Prop;   (* candidates, given the kept solutions; their values *)
    h_B : Z -> Q4 -> Q4 -> Prop      (* what happens between two generations *) }.

  Definition h_state (H : HParams) (it : Z) (q : Q4) (r : option Rec) : CbState :=
    {| cb_x := h_view H (qb q); cb_fun := qbf q; cb_nfev := (it * Z.of_nat (h_p H))%Z;
       cb_nit := it; cb_all := r |}.
  Definition cbe (H : HParams) (it : Z) (q : Q4) (r : option Rec) (pop : matrix) : list event :=
    if h_cb H then [ECb pop (h_state H it q r) None] else [].

  Definition rec0 (nout : option Z) : option Rec :=
    match nout with Some _ => Some ([], []) | None => None end.

  (** [Hist H it q r st pop t]: after [it] iterations the kept solutions are [q], the record is [r],
      the status is [st], the current population (as shown to the callback) is [pop] and the trace
      is [t]. *)
  Inductive Hist (H : HParams)
    : Z -> Q4 -> option Rec -> option Z -> matrix -> list event -> Prop :=
  | Hist_init X X' f evs r :
      length X = h_p H -> length X' = h_p H -> length f = h_p H ->
      cbs evs = [] -> Shares (h_mode H) (h_p H) f evs ->
      (h_mode H <> Mpi ->
       X' = X /\ exists l, evs = map ok l /\ Permutation l (combine (map (h_view H) X) f) /\
                           (h_mode H = Serial -> l = combine (map (h_view H) X) f)) ->
      Forall (h_C0 H) X ->
      RecW (h_nout H) (h_mx H) 1 X' f (nth (argmin f) X' [], nth (argmin f) f n0)
           (rec0 (h_nout H)) r ->
      forall Xk, length Xk = h_p H -> Xk = X \/ Xk = X' ->
      let q := mkQ4 Xk f (nth (argmin f) X' []) (nth (argmin f) f n0) in
      Hist H 1 q r None (h_pop0 H X') (evs ++ cbe H 1 q r (h_pop0 H X'))
  | Hist_step it q r pop t q1 q' st evs cand cf r' :
      Hist H it q r None pop t ->
      h_B H it q q1 ->
      GenStep (h_view H) (h_mode H) (h_sync H) (it + 1) (h_mx H) (h_xtol H) (h_ftol H) (h_p H)
              q1 q' st evs cand cf ->
      h_C H q1 cand cf ->
      RecW (h_nout H) (h_mx H) (it + 1) (h_recp H q' cand) cf (h_recb H q' cand cf) r r' ->
      Hist H (it + 1) q' r' st (h_pop H q' cand)
           (t ++ evs ++ cbe H (it + 1) q' r' (h_pop H q' cand)).

  (** ** Basic facts about generations *)
  Lemma sync_status_cases it mx xtol ftol xb xi fi :
    match sync_status it mx xtol ftol xb xi fi with
    | None => nleb fi ftol = false /\ (it < mx)%Z
    | Some c => (c = 0%Z /\ nleb (vnorm (vsub xb xi)) xtol = true /\ nleb fi ftol = true)
                \/ (c = 1%Z /\ nleb fi ftol = true /\ nleb (vnorm (vsub xb xi)) xtol = false)
                \/ (c = (-1)%Z /\ nleb fi ftol = false /\ (mx <= it)%Z)
    end.
  Proof.
    unfold sync_status.
    destruct (nleb (vnorm (vsub xb xi)) xtol) eqn:H1, (nleb fi ftol) eqn:H2; cbn; auto;
      destruct (mx <=? it)%Z eqn:H3; auto;
      try (apply Z.leb_le in H3); try (apply Z.leb_gt in H3); auto.
  Qed.

  Lemma async1_status xtol ftol i c cf q :
    match snd (async1 xtol ftol i c cf q) with
    | None => True
    | Some s => (s = 0%Z \/ s = 1%Z) /\ nleb cf ftol = true /\
                qbf (fst (async1 xtol ftol i c cf q)) = cf /\
                qb (fst (async1 xtol ftol i c cf q)) = c /\
                nleb cf (nth i (qf q) n0) = true /\ nleb cf (qbf q) = true /\
                (s = 0%Z -> nleb (vnorm (vsub (qb q) c)) xtol = true)
    end.
  Proof.
    unfold async1, async_sel.
    destruct (cf <=? nth i (qf q) n0) eqn:H1; [|exact Logic.I].
    destruct (cf <=? qbf q) eqn:H2; [|exact Logic.I]. cbn.
    destruct (vnorm (vsub (qb q) c) <=? xtol) eqn:H3; cbn.
    - destruct (cf <=? ftol) eqn:H4; cbn; auto 10.
    - destruct (cf <=? ftol) eqn:H4; cbn; auto. repeat split; auto. discriminate.
  Qed.

  Lemma asyncs_status xtol ftol l : forall i q st c,
    snd (asyncs xtol ftol i l q st) = Some c ->
    (l = [] /\ st = Some c) \/ c = 0%Z \/ c = 1%Z.
  Proof.
    induction l as [|[x f] l IH]; intros i q st c H; [left; auto|]. right.
    cbn [asyncs] in H. cbn zeta in H. apply IH in H.
    destruct H as [[-> H]|H]; [|exact H].
    pose proof (async1_status xtol ftol i x f q) as Hs. rewrite H in Hs. apply Hs.
  Qed.

  Lemma gen_status sync it mx xtol ftol cand cf q q' st :
    gen_next sync it mx xtol ftol cand cf q = (q', st) ->
    match st with
    | None => (it < mx)%Z
    | Some c => (c = 0%Z \/ c = 1%Z \/ (c = (-1)%Z /\ (mx <= it)%Z))
    end.
  Proof.
    destruct sync; cbn [gen_next]; intros H.
    - injection H as _ <-.
      pose proof (sync_status_cases it mx xtol ftol (qb q)
        (nth (argmin (sel_fun cf (qf q))) (sel_x cand cf (qx q) (qf q)) [])
        (nth (argmin (sel_fun cf (qf q))) (sel_fun cf (qf q)) n0)) as Hs.
      cbn [sync_sel ss_status].
      destruct (sync_status _ _ _ _ _ _ _); [|tauto].
      destruct Hs as [[-> _]|[[-> _]|(-> & _ & Hm)]]; auto.
    - cbn zeta in H. injection H as _ <-.
      destruct (snd (asyncs xtol ftol 0 (combine cand cf) q None)) eqn:Hs; cbn [last_status].
      + apply asyncs_status in Hs. destruct Hs as [[_ Hs]|[Hs|Hs]]; [discriminate|auto|auto].
      + destruct (mx <=? it)%Z eqn:Hm; [apply Z.leb_le in Hm|apply Z.leb_gt in Hm]; auto.
  Qed.

  Lemma Hist_status (H : HParams) it q r st pop t :
    Hist H it q r st pop t ->
    (1 <= it)%Z /\ match st with
            | None => (it = 1 \/ it < h_mx H)%Z
            | Some c => (2 <= it)%Z /\ (c = 0%Z \/ c = 1%Z \/ (c = (-1)%Z /\ (h_mx H <= it)%Z))
            end.
  Proof.
    induction 1 as [X X' f evs r HX HX' Hf Hc Hs Hev HC0 Hrec Xk HXk HXe q
                   |it q r pop t q1 q' st evs cand cf r' Hh IH HB HG HC Hrec].
    - split; lia.
    - pose proof (gen_status _ _ _ _ _ _ _ _ _ _ (gs_next _ _ _ _ _ _ _ _ _ _ _ _ _ _ HG)).
      destruct IH as [IH _]. split; [lia|].
      destruct st; [split; [lia|]; auto|right; auto].
  Qed.

  (** A returned result and its trace. *)
  Definition RunOf (H : HParams) (res : OptRes) (t : list event) (X : Q4 -> matrix -> Prop)
    : Prop :=
    exists it q r c m pop,
      Hist H it q r (Some c) pop t /\ message c = Some m /\ X q pop /\
      res = {| r_x := h_view H (qb q); r_success := (0 <=? c)%Z; r_status := c; r_message := m;
               r_fun := qbf q; r_nfev := (it * Z.of_nat (h_p H))%Z; r_nit := it; r_all := r |}.

  Lemma message_pop c : (c = 0%Z \/ c = 1%Z \/ c = (-1)%Z) -> exists m, message c = Some m.
  Proof. intros [->|[->| ->]]; eexists; reflexivity. Qed.
End HistDefs.
