-Q theories Verif
theories/Base.v
theories/Base_Facts.v
theories/Cont_Model.v
theories/Cont_Spec.v
theories/Cont_Proofs.v
theories/Cont_Bisection.v
theories/Cont_Bisection2.v
theories/Cont_Bisection3.v
theories/Cont_Warm.v
theories/Cont_Rest.v
theories/Cont_Product.v
theories/Cont_Product2.v
theories/Cont_Live.v
theories/Cont_Live2.v
theories/Cont_Settings.v
theories/Cont_Properties.v
theories/Map_Model.v
theories/Map_Spec.v
theories/Map_Proofs.v
theories/Map_Chain.v
theories/Map_More.v
theories/Map_MF.v
theories/Base_NaN.v
theories/Scale_Model.v
theories/Scale_Proofs.v
theories/Map_Properties.v
theories/Sym_Expr.v
theories/Sym_Facts.v
theories/Sym_Model.v
theories/Functor_Model.v
theories/Functor_Proofs.v
theories/Functor_Properties.v
theories/Sym_RecSub.v
theories/RecSub_Properties.v
theories/Sym_Spec.v
theories/Sym_Quant.v
theories/Sym_Constr.v
theories/Sym_OneSided.v
theories/Sym_Eps.v
theories/Constr_Properties.v
theories/Sym_Switch.v
theories/Pen_Proofs.v
theories/Pen_Properties.v
theories/Sym_Lu.v
theories/Sym_Dual.v
theories/Sym_Traj.v
theories/Sym_Var.v
theories/Dual_Properties.v
theories/Sym_DiffCtl.v
theories/Ctl_Properties.v
theories/Norm_Properties.v
theories/Count_Properties.v
theories/Geo_Model.v
theories/Geo_Properties.v
theories/Decl_Model.v
theories/Decl_Properties.v
theories/Shoot_Model.v
theories/Shoot_Properties.v
theories/Armijo_Properties.v
theories/Shift_Properties.v
theories/Ivp_Model.v
theories/Ivp_Proofs.v
theories/Ivp_Properties.v
theories/Fd_Model.v
theories/Fd_Proofs.v
theories/Fd_Properties.v
theories/Spline_Model.v
theories/Spline_Proofs.v
theories/Spline_Properties.v
theories/Name_Model.v
theories/Name_Properties.v
theories/Guess_Model.v
theories/Guess_Properties.v
theories/Jac_Model.v
theories/Jac_Proofs.v
theories/Jac_Properties.v
theories/Solve_Model.v
theories/Solve_Properties.v
theories/Unit_Model.v
theories/Unit_Spec.v
theories/Unit_Proofs.v
theories/Unit_Steps.v
theories/Unit_Dual.v
theories/Unit_Control.v
theories/Unit_Run.v
theories/Unit_Scale.v
theories/Unit_Properties.v
theories/Red_Model.v
theories/Red_Facts.v
theories/Red_Oracle.v
theories/Red_Noether.v
theories/Red_Step.v
theories/Red_Reduce.v
theories/Red_Chain.v
theories/Red_Ocp.v
theories/Red_Lu.v
theories/Red_Properties.v
theories/Reduction_Properties.v
theories/RedMap_Model.v
theories/RedMap_Facts.v
theories/RedMap_Properties.v
theories/Spbvp_Model.v
theories/Spbvp_Properties.v
theories/Pipe_Model.v
theories/Pipe_Properties.v
theories/Whole_Proofs.v
theories/Whole_Steps.v
theories/Whole_Geo.v
theories/Whole_Properties.v
theories/Chain_Model.v
theories/Chain_Facts.v
theories/Chain_Back.v
theories/Chain_Proofs.v
theories/Chain_Simpson.v
theories/Chain_Properties.v
theories/Near_Proofs.v
theories/Near_Properties.v
theories/Full_Model.v
theories/Full_Proofs.v
theories/Full_Properties.v
theories/Bound_Proofs.v
theories/Bound_Properties.v
theories/Start_Model.v
theories/Start_Proofs.v
theories/Start_Properties.v
theories/Par_Proofs.v
theories/Par_Properties.v
theories/Help_Proofs.v
theories/Help_Properties.v
theories/Swi_Proofs.v
theories/Swi_Properties.v
theories/Qty_Model.v
theories/Qty_Proofs.v
theories/Qty_Properties.v
theories/Log_Model.v
theories/Log_Properties.v
theories/Trj_Model.v
theories/Trj_Properties.v
theories/Args_Proofs.v
theories/Args_Steps.v
theories/Args_Properties.v
theories/Back_Properties.v
theories/Report_Properties.v
