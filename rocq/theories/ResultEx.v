(** C42 for the results of the optimizers and samplers, and concrete cases. *)
From Coq Require Import String Sorted Floats.
From Verif Require Import Base Num Env Common Sample Result.
Local Open Scope list_scope.

Section Results.
  Context {N : Num}.
  (** the values stored in a result *)
  Inductive rval :=
  | RVec (v : list T) | RNum (v : T) | RBool (b : bool) | RInt (z : Z) | RStr (s : string)
  | RX (l : list (list (list T))) | RF (l : list (list T)) | RChain (l : list (list T)) | RFit (l : list T).

  Definition update_all (all : option (rval * rval)) (d : @dict rval) : @dict rval :=
    match all with
    | None => d
    | Some (xs, fs) => d_update d [(codes "xall", xs); (codes "funall", fs)]
    end.

  (** the returned dictionary of an optimizer: de/_de.py:289-301, cpso/_cpso.py:309-321,
      na/_na.py:250-262, cmaes/_cmaes.py:345-357, vdcma/_vdcma.py:411-423 *)
  Definition opt_dict (r : OptRes) : @dict rval :=
    update_all (match r_all r with Some (xs, fs) => Some (RX xs, RF fs) | None => None end)
      [(codes "x", RVec (r_x r)); (codes "success", RBool (r_success r)); (codes "status", RInt (r_status r));
       (codes "message", RStr (r_message r)); (codes "fun", RNum (r_fun r));
       (codes "nfev", RInt (r_nfev r)); (codes "nit", RInt (r_nit r))].
  (** and of a sampler: mcmc/_mcmc.py:161-169, hmc/_hmc.py:190-200 (the latter with nfev) *)
  Definition samp_dict (r : SampRes) : @dict rval :=
    update_all (match sr_all r with Some (xs, fs) => Some (RChain xs, RFit fs) | None => None end)
      ([(codes "x", RVec (sr_x r)); (codes "fun", RNum (sr_fun r))] ++
       match sr_nfev r with Some n => [(codes "nfev", RInt n)] | None => [] end ++
       [(codes "nit", RInt (sr_nit r)); (codes "accept_ratio", RNum (sr_accept r))]).

  (** Every field of the result of an optimizer reads back, by item and by attribute; xall and funall
      exist exactly when the run recorded them; the printed form has exactly seven lines. *)
  Theorem C42_optimize_result (r : OptRes) (on_class : str -> bool) (rv : rval -> str) (name : str) :
    let d := opt_dict r in
    let get k := getitem d (codes k) in
    get "x"%string = inl (Val (RVec (r_x r))) /\ get "success"%string = inl (Val (RBool (r_success r))) /\
    get "status"%string = inl (Val (RInt (r_status r))) /\ get "message"%string = inl (Val (RStr (r_message r))) /\
    get "fun"%string = inl (Val (RNum (r_fun r))) /\ get "nfev"%string = inl (Val (RInt (r_nfev r))) /\
    get "nit"%string = inl (Val (RInt (r_nit r))) /\
    get "xall"%string = match r_all r with Some a => inl (Val (RX (fst a))) | None => inr (KeyErr (codes "xall")) end /\
    get "funall"%string = match r_all r with Some a => inl (Val (RF (snd a))) | None => inr (KeyErr (codes "funall")) end /\
    (forall k v, on_class k = false -> getitem d k = inl v -> getattribute on_class d k = inl v) /\
    repr rv name d = join [10]
      [codes "     fun: " ++ rv (RNum (r_fun r)); codes " message: " ++ rv (RStr (r_message r));
       codes "    nfev: " ++ rv (RInt (r_nfev r)); codes "     nit: " ++ rv (RInt (r_nit r));
       codes "  status: " ++ rv (RInt (r_status r)); codes " success: " ++ rv (RBool (r_success r));
       codes "       x: " ++ rv (RVec (r_x r))].
  Proof.
    assert (HA : forall (d : @dict rval) k v, on_class k = false -> getitem d k = inl v -> getattribute on_class d k = inl v).
    { intros d k v Hk Hg. unfold getattribute. rewrite Hk, Hg. reflexivity. }
    destruct r as [x su st me fu nf ni [[xs fs]|]]; cbv zeta;
      repeat match goal with |- _ /\ _ => split end; try reflexivity; apply HA.
  Qed.

  Theorem C42_sample_result (r : SampRes) (rv : rval -> str) (name : str) :
    repr rv name (samp_dict r) = join [10]
      ([codes " accept_ratio: " ++ rv (RNum (sr_accept r)); codes "          fun: " ++ rv (RNum (sr_fun r))] ++
       match sr_nfev r with Some n => [codes "         nfev: " ++ rv (RInt n)] | None => [] end ++
       [codes "          nit: " ++ rv (RInt (sr_nit r)); codes "            x: " ++ rv (RVec (sr_x r))]).
  Proof. destruct r as [x fu ni ac [n|] [[xs fs]|]]; reflexivity. Qed.
End Results.

(** ** A concrete program: the values of a name, the method names of dict, a failing del. *)
Definition dict_method (k : str) : bool := str_eqb k (codes "keys") || str_eqb k (codes "items").
Definition prog : list (@op nat) :=
  [OSet Attr (codes "nit") 3; OSet Item (codes "xall") 4; OSet Attr (codes "keys") 5;
   OSet Item (codes "nit") 6; ODel Attr (codes "fun"); OSet Attr (codes "b") 7; ODel Item (codes "b")].
Theorem C42_run :
  let d := fst (apply_ops [] prog) in
  getattribute dict_method d (codes "nit") = inl (Val 6) /\
  getitem d (codes "keys") = inl (Val 5) /\
  getattribute dict_method d (codes "keys") = inl (OfClass (codes "keys")) /\
  getattribute dict_method d (codes "b") = inr (AttrErr (codes "b")) /\
  getitem d (codes "b") = inr (KeyErr (codes "b")) /\
  snd (apply_ops [] prog) = [None; None; None; None; Some (KeyErr (codes "fun")); None; None] /\
  dir d = [codes "nit"; codes "xall"; codes "keys"] /\
  repr (fun v => [v + 48]) (codes "R") d = codes " keys: 5" ++ [10] ++ codes "  nit: 6".
Proof. vm_compute. repeat split. Qed.
