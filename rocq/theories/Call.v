(** Calls by keyword: stochopy/optimize/_helpers.py, stochopy/sample/_helpers.py, the signatures of
    the solvers and pso's positional call of cpso. *)
From Verif Require Import Base Num Env Common DE CPSO NA Mat CMAES VDCMA Sample.

Section Call.
  Context {N : Num} {E : Env N}.

  (** ** Python values that can be arguments.  [VSeq]: nested lists or tuples of numbers. *)
  Inductive Val :=
  | VNone | VBool (b : bool) | VInt (z : Z) | VFloat (x : T) | VStr (s : string)
  | VArr (x : nd) | VSeq (x : nd) | VFun | VTuple0 | VOther.

  Definition keyword := (string * Val)%type.
  Definition Sig := list (string * option Val).

  Definition lookup (k : string) (l : list keyword) : option Val :=
    option_map snd (find (fun p => String.eqb (fst p) k) l).
  Definition has_key (k : string) (l : list keyword) : bool :=
    existsb (fun p => String.eqb (fst p) k) l.

  (** The keywords after each other: an unknown name, or a name that already has a value, is a
      TypeError. *)
  Fixpoint take_keywords (names : list string) (bound kw : list keyword) : option (list keyword) :=
    match kw with
    | [] => Some bound
    | (k, v) :: kw =>
        if existsb (String.eqb k) names && negb (has_key k bound)
        then take_keywords names (bound ++ [(k, v)]) kw else None
    end.
  Fixpoint fill_defaults (sg : Sig) (bound : list keyword) : option (list keyword) :=
    match sg with
    | [] => Some []
    | (k, d) :: sg =>
        match lookup k bound, d with
        | Some v, _ | None, Some v => option_map (cons (k, v)) (fill_defaults sg bound)
        | None, None => None
        end
    end.
  (** The value of each parameter of a function with signature [sg] called with positional
      arguments [pos] and keyword arguments [kw]; [None]: TypeError. *)
  Definition bind_args (sg : Sig) (pos : list Val) (kw : list keyword) : option (list keyword) :=
    if (length sg <? length pos)%nat then None
    else match take_keywords (map fst sg) (combine (map fst sg) pos) kw with
         | None => None
         | Some bound => fill_defaults sg bound
         end.

  (** ** Signatures *)
  Definition req (k : string) : string * option Val := (k, None).
  Definition dfl (k : string) (v : Val) : string * option Val := (k, Some v).
  Definition lit (m e : Z) : Val := VFloat (nlit m e).

  Definition sig_head : Sig :=
    [req "fun"; req "bounds"; dfl "x0" VNone; dfl "args" VTuple0; dfl "maxiter" (VInt 100)]%string.
  (** de/_de.py:13-33 *)
  Definition sig_de : Sig := List.app sig_head (
    [dfl "popsize" (VInt 10); dfl "mutation" (lit 5 (-1)); dfl "recombination" (lit 9 (-1));
     dfl "strategy" (VStr "best1bin"); dfl "seed" VNone; dfl "xtol" (lit 1 (-8)); dfl "ftol" (lit 1 (-8));
     dfl "constraints" VNone; dfl "updating" (VStr "immediate"); dfl "workers" (VInt 1);
     dfl "backend" VNone; dfl "return_all" (VBool false); dfl "verbosity" (lit 1 0);
     dfl "callback" VNone])%string.
  (** cpso/_cpso.py:12-33 *)
  Definition sig_cpso : Sig := List.app sig_head (
    [dfl "popsize" (VInt 10); dfl "inertia" (lit 7298 (-4)); dfl "cognitivity" (lit 149618 (-5));
     dfl "sociability" (lit 149618 (-5)); dfl "competitivity" (lit 1 0); dfl "seed" VNone;
     dfl "xtol" (lit 1 (-8)); dfl "ftol" (lit 1 (-8));
     dfl "constraints" VNone; dfl "updating" (VStr "immediate"); dfl "workers" (VInt 1);
     dfl "backend" VNone; dfl "return_all" (VBool false); dfl "verbosity" (lit 1 0);
     dfl "callback" VNone])%string.
  (** pso/_pso.py:9-29 *)
  Definition sig_pso : Sig := List.app sig_head (
    [dfl "popsize" (VInt 10); dfl "inertia" (lit 7298 (-4)); dfl "cognitivity" (lit 149618 (-5));
     dfl "sociability" (lit 149618 (-5)); dfl "seed" VNone;
     dfl "xtol" (lit 1 (-8)); dfl "ftol" (lit 1 (-8));
     dfl "constraints" VNone; dfl "updating" (VStr "immediate"); dfl "workers" (VInt 1);
     dfl "backend" VNone; dfl "return_all" (VBool false); dfl "verbosity" (lit 1 0);
     dfl "callback" VNone])%string.
  (** na/_na.py:11-27 *)
  Definition sig_na : Sig := List.app sig_head (
    [dfl "popsize" (VInt 10); dfl "nrperc" (lit 5 (-1)); dfl "seed" VNone;
     dfl "xtol" (lit 1 (-8)); dfl "ftol" (lit 1 (-8)); dfl "workers" (VInt 1);
     dfl "backend" VNone; dfl "return_all" (VBool false); dfl "verbosity" (lit 1 0);
     dfl "callback" (VBool true)])%string.
  (** cmaes/_cmaes.py:12-30, vdcma/_vdcma.py:13-31 *)
  Definition sig_cma : Sig := List.app sig_head (
    [dfl "popsize" (VInt 10); dfl "sigma" (lit 1 (-1)); dfl "muperc" (lit 5 (-1)); dfl "seed" VNone;
     dfl "xtol" (lit 1 (-8)); dfl "ftol" (lit 1 (-8)); dfl "constraints" VNone; dfl "workers" (VInt 1);
     dfl "backend" VNone; dfl "return_all" (VBool false); dfl "verbosity" (lit 1 0);
     dfl "callback" VNone])%string.
  (** sample/mcmc/_mcmc.py:11-23 *)
  Definition sig_mcmc : Sig := List.app sig_head (
    [dfl "stepsize" (lit 1 (-1)); dfl "perc" (lit 1 0); dfl "seed" VNone; dfl "constraints" VNone;
     dfl "return_all" (VBool true); dfl "callback" VNone])%string.
  (** sample/hmc/_hmc.py:11-25 *)
  Definition sig_hmc : Sig := List.app sig_head (
    [dfl "nleap" (VInt 10); dfl "stepsize" (lit 1 (-2)); dfl "seed" VNone; dfl "jac" VNone;
     dfl "finite_diff_abs_step" (lit 1 (-4)); dfl "constraints" VNone;
     dfl "return_all" (VBool true); dfl "callback" VNone])%string.

  (** ** From values to the arguments of the models; [None]: a value of a type that the models do
      not cover (for instance a string for maxiter). *)
  Definition as_int (v : Val) : option Z := match v with VInt z => Some z | _ => None end.
  Definition as_num (v : Val) : option T :=
    match v with VFloat x => Some x | VInt z => Some (nZ z) | _ => None end.
  Definition as_opt_num (v : Val) : option (option T) :=
    match v with VNone => Some None | _ => option_map Some (as_num v) end.
  Definition as_opt_int (v : Val) : option (option Z) :=
    match v with VNone => Some None | VInt z => Some (Some z) | _ => None end.
  Definition as_str (v : Val) : option string := match v with VStr s => Some s | _ => None end.
  Definition as_opt_str (v : Val) : option (option string) :=
    match v with VNone => Some None | VStr s => Some (Some s) | _ => None end.
  (** truth value *)
  Definition as_bool (v : Val) : option bool :=
    match v with
    | VNone => Some false | VBool b => Some b | VInt z => Some (negb (z =? 0)%Z)
    | VStr s => Some (negb (String.eqb s "")) | VFun => Some true | VTuple0 => Some false
    | _ => None
    end.
  Definition as_array (v : Val) : option nd :=
    match v with VArr x | VSeq x => Some x | _ => None end.
  (** value, and whether it is an ndarray *)
  Definition as_x0 (v : Val) : option (option nd * bool) :=
    match v with
    | VNone => Some (None, true) | VArr x => Some (Some x, true) | VSeq x => Some (Some x, false)
    | _ => None
    end.
  Definition as_step (v : Val) : option (nd * bool) :=
    match v with
    | VArr x => Some (x, true) | VSeq x => Some (x, false)
    | VFloat x => Some (D0 x, false) | VInt z => Some (D0 (nZ z), false)
    | _ => None
    end.
  (** [hasattr(v, "__call__")] *)
  Definition callable (v : Val) : bool := match v with VFun => true | _ => false end.
  Definition as_cb (v : Val) : CbArg :=
    match v with VNone => CbNone | VFun => CbFun | _ => CbBad end.
  Definition as_jac (v : Val) : JacArg :=
    match v with VNone => JacNone | VFun => JacFun | _ => JacBad end.

  Definition arg (e : list keyword) (k : string) : Val := match lookup k e with Some v => v | None => VOther end.
  (** a parameter that the solver does not have *)
  Definition arg_or (d : Val) (e : list keyword) (k : string) : Val := match lookup k e with Some v => v | None => d end.

  Definition obind {A B} (o : option A) (f : A -> option B) : option B :=
    match o with Some a => f a | None => None end.
  Local Notation "x <-? o ;; k" := (obind o (fun x => k)) (at level 61, o at next level, right associativity).

  (** The arguments shared by the optimizers. *)
  Definition mk_args (e : list keyword) : option Args :=
    bounds <-? as_array (arg e "bounds") ;;
    x0 <-? as_x0 (arg e "x0") ;;
    maxiter <-? as_int (arg e "maxiter") ;;
    popsize <-? as_int (arg e "popsize") ;;
    seed <-? as_opt_int (arg e "seed") ;;
    xtol <-? as_num (arg e "xtol") ;;
    ftol <-? as_num (arg e "ftol") ;;
    constraints <-? as_opt_str (arg_or VNone e "constraints") ;;
    workers <-? as_int (arg e "workers") ;;
    backend <-? as_opt_str (arg e "backend") ;;
    return_all <-? as_bool (arg e "return_all") ;;
    verbosity <-? as_num (arg e "verbosity") ;;
    Some (mkArgs (callable (arg e "fun")) bounds (fst x0) (snd x0) maxiter popsize seed xtol ftol
                 constraints workers backend return_all verbosity (as_cb (arg e "callback"))).
  Definition mk_sargs (e : list keyword) : option SArgs :=
    bounds <-? as_array (arg e "bounds") ;;
    x0 <-? as_x0 (arg e "x0") ;;
    maxiter <-? as_int (arg e "maxiter") ;;
    step <-? as_step (arg e "stepsize") ;;
    seed <-? as_opt_int (arg e "seed") ;;
    constraints <-? as_opt_str (arg e "constraints") ;;
    return_all <-? as_bool (arg e "return_all") ;;
    Some (mkSArgs (callable (arg e "fun")) bounds (fst x0) maxiter (fst step) (snd step) seed
                  constraints return_all (as_cb (arg e "callback"))).

  Inductive Optimizer := O_cmaes | O_cpso | O_de | O_na | O_pso | O_vdcma.
  Inductive Sampler := S_mcmc | S_hmc.

  Definition o_sig (o : Optimizer) : Sig :=
    match o with
    | O_cmaes | O_vdcma => sig_cma | O_cpso => sig_cpso | O_de => sig_de | O_na => sig_na
    | O_pso => sig_pso
    end.
  Definition s_sig (s : Sampler) : Sig := match s with S_mcmc => sig_mcmc | S_hmc => sig_hmc end.

  Definition run_cpso (e : list keyword) : option (M OptRes) :=
    a <-? mk_args e ;;
    w <-? as_num (arg e "inertia") ;; c1 <-? as_num (arg e "cognitivity") ;;
    c2 <-? as_num (arg e "sociability") ;; g <-? as_opt_num (arg e "competitivity") ;;
    u <-? as_str (arg e "updating") ;;
    Some (cpso_minimize (mkCPSOArgs a w c1 c2 g u)).

  (** The body of a solver, with values for all its parameters. *)
  Definition run_optimizer (o : Optimizer) (e : list keyword) : option (M OptRes) :=
    match o with
    | O_de =>
        a <-? mk_args e ;;
        F <-? as_num (arg e "mutation") ;; CR <-? as_num (arg e "recombination") ;;
        s <-? as_str (arg e "strategy") ;; u <-? as_str (arg e "updating") ;;
        Some (de_minimize (mkDEArgs a F CR s u))
    | O_cpso => run_cpso e
    | O_pso =>
        (* pso/_pso.py:97-122 *)
        match bind_args sig_cpso
                [arg e "fun"; arg e "bounds"; arg e "x0"; arg e "args"; arg e "maxiter"; arg e "popsize";
                 arg e "inertia"; arg e "cognitivity"; arg e "sociability"; VNone; arg e "seed";
                 arg e "xtol"; arg e "ftol"; arg e "constraints"; arg e "updating"; arg e "workers";
                 arg e "backend"; arg e "return_all"; arg e "verbosity"; arg e "callback"] [] with
        | None => Some (raise TypeError)
        | Some e' => run_cpso e'
        end
    | O_na =>
        a <-? mk_args e ;; nr <-? as_num (arg e "nrperc") ;;
        Some (na_minimize (mkNAArgs a nr))
    | O_cmaes =>
        a <-? mk_args e ;; s <-? as_num (arg e "sigma") ;; m <-? as_num (arg e "muperc") ;;
        Some (cmaes_minimize (mkCMAArgs a s m))
    | O_vdcma =>
        a <-? mk_args e ;; s <-? as_num (arg e "sigma") ;; m <-? as_num (arg e "muperc") ;;
        Some (vdcma_minimize (mkCMAArgs a s m))
    end.
  Definition run_sampler (s : Sampler) (e : list keyword) : option (M SampRes) :=
    match s with
    | S_mcmc => a <-? mk_sargs e ;; p <-? as_num (arg e "perc") ;; Some (mcmc_sample (mkMCArgs a p))
    | S_hmc =>
        a <-? mk_sargs e ;; nl <-? as_int (arg e "nleap") ;;
        h <-? as_num (arg e "finite_diff_abs_step") ;;
        Some (hmc_sample (mkHMCArgs a nl (as_jac (arg e "jac")) h))
    end.

  (** A call with positional arguments [pos] and keyword arguments [kw]. *)
  Definition call_optimizer (o : Optimizer) (pos : list Val) (kw : list keyword) : option (M OptRes) :=
    match bind_args (o_sig o) pos kw with
    | None => Some (raise TypeError)
    | Some e => run_optimizer o e
    end.
  Definition call_sampler (s : Sampler) (pos : list Val) (kw : list keyword) : option (M SampRes) :=
    match bind_args (s_sig s) pos kw with
    | None => Some (raise TypeError)
    | Some e => run_sampler s e
    end.

  (** optimize/_helpers.py:9,39-41 with the calls of register at the end of the solvers' files *)
  Definition optimizer_map (name : string) : option Optimizer :=
    option_map snd (find (fun p => String.eqb (fst p) name)
      [("cmaes", O_cmaes); ("cpso", O_cpso); ("de", O_de); ("na", O_na); ("pso", O_pso);
       ("vdcma", O_vdcma)]%string).
  (** sample/_helpers.py:8,33-35 *)
  Definition sampler_map (name : string) : option Sampler :=
    option_map snd (find (fun p => String.eqb (fst p) name) [("mcmc", S_mcmc); ("hmc", S_hmc)]%string).

  (** [f(fun=fun, bounds=bounds, x0=x0, args=args, callback=callback, and the options)]: a key of options
      that repeats one of the five is a TypeError. *)
  Definition five (fn bounds x0 args callback : Val) : list keyword :=
    [("fun", fn); ("bounds", bounds); ("x0", x0); ("args", args); ("callback", callback)]%string.
  Definition repeats (kw options : list keyword) : bool :=
    existsb (fun p => has_key (fst p) kw) options.

  (** optimize/_helpers.py:90-94 *)
  Definition minimize (fn bounds x0 args : Val) (method : string) (options : option (list keyword))
      (callback : Val) : option (M OptRes) :=
    let options := match options with Some o => o | None => [] end in
    match optimizer_map method with
    | None => Some (raise KeyError)
    | Some o =>
        if repeats (five fn bounds x0 args callback) options then Some (raise TypeError)
        else call_optimizer o [] (five fn bounds x0 args callback ++ options)
    end.
  (** sample/_helpers.py:79-83 *)
  Definition sample (fn bounds x0 args : Val) (method : string) (options : option (list keyword))
      (callback : Val) : option (M SampRes) :=
    let options := match options with Some o => o | None => [] end in
    match sampler_map method with
    | None => Some (raise KeyError)
    | Some s =>
        if repeats (five fn bounds x0 args callback) options then Some (raise TypeError)
        else call_sampler s [] (five fn bounds x0 args callback ++ options)
    end.
End Call.
