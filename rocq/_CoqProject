-Q theories Verif
theories/Base.v
theories/Num.v
theories/NumR.v
theories/NumE.v
theories/NumF.v
theories/FBridge.v
theories/FLaws.v
theories/Env.v
theories/Common.v
theories/DE.v
theories/CPSO.v
theories/NA.v
theories/Mat.v
theories/CMAES.v
theories/VDCMA.v
theories/Sample.v
theories/Weights.v
theories/Cov.v
theories/Hoare.v
theories/EvalRules.v
theories/Gen.v
theories/Steps.v
theories/Hist.v
theories/Runs.v
theories/CmaRun.v
theories/Best.v
theories/Inst.v
theories/HistFacts.v
theories/HistBest.v
theories/Laws.v
theories/PropPop.v
theories/PropRec.v
theories/PropCma.v
theories/CmaStop.v
theories/Disc.v
theories/Seed.v
theories/Valid.v
theories/Accept.v
theories/Chain.v
theories/Mcmc.v
theories/PropMc.v
theories/Hmc.v
theories/PropHmc.v
theories/PropCb.v
theories/Keep.v
theories/Safe.v
theories/Feas.v
theories/FeasPso.v
theories/FeasNa.v
theories/DimCma.v
theories/FeasCma.v
theories/ExFeas.v
theories/PlainEnv.v
theories/FeasEx.v
theories/FirstPop.v
theories/Strat.v
theories/Trial.v
theories/Enough.v
theories/ExDE.v
theories/Restart.v
theories/Call.v
theories/Dispatch.v
theories/DispEx.v
theories/Modes.v
theories/ModesEx.v
theories/Dims.v
theories/DimsEx.v
theories/Demo.v
theories/ExPop.v
theories/ExCma.v
theories/HmcReal.v
theories/SampInst.v
theories/ExSamp.v
theories/Bench.v
theories/Result.v
theories/ResultEx.v
theories/VdReal.v
theories/Visit.v
theories/VdRun.v
theories/VdRunEx.v
theories/CmReal.v
theories/CmRun.v
theories/CmRunEx.v
theories/EvalVal.v
theories/Pen.v
theories/PenRun.v
theories/PenRunEx.v
theories/Rel.v
theories/Vary.v
theories/Par.v
theories/PropPar.v
theories/ParEx.v
theories/ParReal.v
theories/Lock.v
theories/LockEx.v
theories/Explore.v
theories/Cells.v
theories/Calm.v
theories/CalmEx.v
theories/Flight.v
theories/FlightEx.v
theories/Adapt.v
theories/AdaptEx.v
theories/VAdapt.v
theories/VAdaptEx.v
theories/Mono.v
theories/MonoEx.v
theories/Shift.v
theories/ShiftEx.v
theories/Units.v
theories/UnitsRun.v
theories/UnitsSamp.v
theories/UnitsClaims.v
theories/UnitsEx.v
theories/Limits.v
theories/LimitsClaims.v
theories/LimitsSamp.v
theories/LimitsEx.v
theories/CalmCma.v
theories/PenCalm.v
theories/CalmCmaEx.v
theories/PenCalmEx.v
theories/Watch.v
theories/WatchEx.v
theories/Ranks.v
theories/RanksEx.v
theories/Draws.v
theories/DrawsAlg.v
theories/DrawsEx.v
theories/Replay.v
theories/ReplayEx.v
theories/LastGen.v
theories/LastGenEx.v
theories/VdFin.v
theories/VdPen.v
theories/VdPenEx.v
theories/LowSide.v
theories/Reasons.v
theories/ReasonsEx.v
theories/HmcEq.v
theories/Energy.v
theories/EnergyEx.v
theories/Gibbs.v
theories/GibbsEx.v
theories/Keeps.v
theories/Hull.v
theories/HullEx.v
theories/Slow.v
theories/SlowEx.v
theories/SlowVd.v
theories/SlowVdEx.v
theories/BenchF.v
theories/BenchFEx.v
theories/Wall.v
theories/WallEx.v
theories/BenchOrd.v
theories/Shares.v
theories/SharesEx.v
theories/PenNan.v
theories/PenNanEx.v
theories/Refuse.v
theories/RefuseEx.v
theories/Agree.v
theories/AgreeEx.v
theories/Grad.v
theories/Resume.v
theories/ResumeEx.v
theories/Concat.v
theories/ConcatEx.v
theories/DimsHmc.v
theories/Poison.v
theories/PoisonEx.v
theories/Silent.v
theories/SilentEx.v
theories/Infect.v
theories/InfectEx.v
theories/Collapse.v
theories/CollapseEx.v
