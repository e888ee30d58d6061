-Q theories Verif
theories/CSetModel.v
theories/CSetSpec.v
theories/CSetProofs.v
theories/P_cset.v
theories/FilterModel.v
theories/FilterProofs.v
theories/P_filter.v
theories/ArmijoModel.v
theories/ArmijoProofs.v
theories/P_armijo.v
theories/SearchModel.v
theories/SearchProofs.v
theories/P_search.v
theories/WorkModel.v
theories/P_work.v
theories/ContactModel.v
theories/ContactProofs.v
theories/P_contact.v
theories/AlmModel.v
theories/AlmProofs.v
theories/P_alm.v
theories/MxRing.v
theories/FddpModel.v
theories/P_fddp.v
theories/GapModel.v
theories/P_gap.v
theories/FddpLqModel.v
theories/FddpLqProofs.v
theories/P_fddplq.v
theories/RiccatiModel.v
theories/RiccatiProofs.v
theories/RiccatiValue.v
theories/P_riccati.v
theories/BtModel.v
theories/BtProofs.v
theories/P_bt.v
theories/ParModel.v
theories/ParProofs.v
theories/ParValue.v
theories/P_par.v
theories/RaceModel.v
theories/RaceProofs.v
theories/P_race.v
theories/KktModel.v
theories/P_kkt.v
theories/LqEqModel.v
theories/P_lqeq.v
theories/LqEvalModel.v
theories/P_lqeval.v
theories/NormModel.v
theories/P_norm.v
theories/P_hist.v
theories/CycleModel.v
theories/CycleProofs.v
theories/P_cycle.v
theories/WarmModel.v
theories/P_warm.v
theories/StackModel.v
theories/P_stack.v
theories/ProblemModel.v
theories/P_problem.v
theories/CostStackModel.v
theories/P_coststack.v
theories/RolloutModel.v
theories/P_rollout.v
theories/ArenaModel.v
theories/P_arena.v
theories/MultModel.v
theories/P_mult.v
theories/LagrModel.v
theories/P_lagr.v
theories/StepModel.v
theories/P_step.v
theories/MeritModel.v
theories/P_merit.v
theories/FunModel.v
theories/P_fun.v
theories/QuadCostModel.v
theories/P_quadcost.v
theories/BarrierModel.v
theories/P_barrier.v
theories/Frechet.v
theories/IntegModel.v
theories/P_integ.v
theories/ConeModel.v
theories/P_cone.v
theories/CentroidalModel.v
theories/P_centroidal.v
theories/ManifoldModel.v
theories/P_manifold.v
theories/BkModel.v
theories/BkProofs.v
theories/BkSolve.v
theories/BkFactor.v
theories/BkBlock.v
theories/P_bk.v
theories/DenseModel.v
theories/P_dense.v
theories/P_almreg.v
theories/ExpModel.v
theories/ExpProofs.v
theories/P_exp.v
theories/MbModel.v
theories/P_mb.v
theories/MbForceModel.v
theories/P_mbforce.v
theories/InvDeriv.v
theories/MbDynModel.v
theories/P_mbdyn.v
theories/P_riclower.v
theories/DynSumModel.v
theories/P_dynsum.v
theories/ViewModel.v
theories/P_view.v
theories/CrocModel.v
theories/P_croc.v
theories/ShapeModel.v
theories/P_shape.v
theories/P_shapecyc.v
theories/DualModel.v
theories/P_dual.v
theories/PolyModel.v
theories/P_poly.v
theories/FddpShapeModel.v
theories/P_fddpshape.v
theories/IterModel.v
theories/P_iter.v
theories/P_iter2.v
theories/P_iter3.v
theories/P_iterrun.v
theories/LoggerModel.v
theories/P_logger.v
theories/P_logger2.v
theories/InvDynModel.v
theories/P_invdyn.v
theories/PyWrapModel.v
theories/P_pywrap.v
theories/KnotModel.v
theories/P_knot.v
theories/P_knot2.v
theories/P_iter4.v
theories/DenseShapeModel.v
theories/P_denseshape.v
theories/StateCostModel.v
theories/P_statecost.v
theories/ParShapeModel.v
theories/P_parshape.v
