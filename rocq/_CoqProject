-Q theories Verif
theories/NatTac.v
theories/AlgTactics.v
theories/Exterior.v
theories/Clifford.v
theories/Blades.v
theories/Spec_Grade.v
theories/Grades.v
theories/PyBase.v
theories/Spec_Index.v
theories/Ga_Model.v
theories/Ga_Proof_Tables.v
theories/Ga_Proof_Sort.v
theories/Props_Index.v
theories/Ga_Proof_Sem.v
theories/Ga_Proof_Reduce.v
theories/Ga_Sem.v
theories/Ga_Proof_Rep.v
theories/Ga_Proof_Conv.v
theories/Ga_Proof_Mul.v
theories/Spec_Clifford.v
theories/Clifford_Unique.v
theories/Spec_Mv.v
theories/Ga_Proof_Den.v
theories/Props_Product.v
theories/Ga_Proof_Wedge.v
theories/Ga_Proof_Inner.v
theories/Props_Inner.v
theories/Ga_Proof_Grade.v
theories/GradeLaws.v
theories/ContrLaws.v
theories/Det.v
theories/Mv_Model.v
theories/Mv_Proof.v
theories/Mv_Expr.v
theories/Mv_Proof_Expr.v
theories/Props_Mv.v
theories/Dual_Model.v
theories/Dual_Proof.v
theories/Props_Dual.v
theories/PyStr.v
theories/Names_Model.v
theories/Names_Proof.v
theories/Props_Names.v
theories/Lazy_Model.v
theories/Props_Lazy.v
theories/Coef_Model.v
theories/Coef_Proof.v
theories/Props_Coef.v
theories/Props_Make.v
theories/ExtDeriv.v
theories/Props_Versor.v
theories/Spec_Diff.v
theories/Metric_Model.v
theories/Metric_Agree.v
theories/Inertia.v
theories/Props_Metric.v
theories/Nabla.v
theories/Diff_Model.v
theories/Diff_Proof.v
theories/Props_Diff.v
theories/Dop_Model.v
theories/Dop_Proof.v
theories/Props_Dop.v
theories/Props_Dop_Cases.v
theories/Outer.v
theories/BladeLaws.v
theories/Blade_Model.v
theories/Props_Blade.v
theories/Exp_Model.v
theories/Spec_Exp.v
theories/Props_Exp.v
theories/Cplx.v
theories/Props_Exp_Case.v
theories/PosDef.v
theories/Norm_Model.v
theories/Spec_Norm.v
theories/Props_Norm.v
theories/Props_Norm_Case.v
theories/Lt_Model.v
theories/Spec_Lt.v
theories/Lt_Proof.v
theories/Props_Lt.v
theories/Props_Trace.v
theories/Props_Lt_Cases.v
theories/Mlt_Model.v
theories/Spec_Mlt.v
theories/Props_Mlt.v
theories/Symat_Model.v
theories/Props_Symat.v
theories/Printer_Model.v
theories/Spec_Printer.v
theories/Props_Printer.v
theories/Props_Tex.v
theories/Transfer.v
theories/FadLev.v
theories/Gamma.v
theories/Shirokov.v
theories/Hitzer.v
theories/Inverse_Model.v
theories/Inverse_Proof.v
theories/Props_Inverse.v
theories/Parser_Model.v
theories/Parser_Proof.v
theories/Props_Parser.v
theories/Format_Model.v
theories/Format_Proof.v
theories/Spec_Format.v
theories/Props_Format.v
theories/RecipBlades.v
theories/RecipSum.v
theories/Agrad_Model.v
theories/Agrad_Proof.v
theories/Spec_Agrad.v
theories/Props_Agrad.v
theories/Props_Agrad_Case.v
theories/MapCoef.v
theories/Coefwise_Model.v
theories/Spec_Coefwise.v
theories/Props_Coefwise.v
theories/BladeName_Model.v
theories/Props_BladeName.v
theories/MltPrint_Model.v
theories/Spec_MltPrint.v
theories/Props_MltPrint.v
theories/Cderiv_Model.v
theories/Spec_Cderiv.v
theories/Props_Cderiv.v
theories/Calculus.v
theories/Spec_Calculus.v
theories/Props_Calculus.v
theories/Create_Model.v
theories/Props_Create.v
theories/Recip_Model.v
theories/Props_Recip.v
theories/Symbol_Model.v
theories/Spec_Symbol.v
theories/Symbol_Proof.v
theories/Props_Symbol.v
theories/Ops_Model.v
theories/Props_Ops.v
theories/Gprint_Model.v
theories/Spec_Gprint.v
theories/Gprint_Proof.v
theories/Props_Gprint.v
theories/Power_Model.v
theories/Spec_Power.v
theories/Power_Proof.v
theories/Props_Power.v
theories/Corr_Model.v
theories/Spec_Corr.v
theories/Props_Corr.v
theories/Module_Model.v
theories/Props_Module.v
theories/Comps_Model.v
theories/Spec_Comps.v
theories/Props_Comps.v
theories/Fntensor_Model.v
theories/Spec_Fntensor.v
theories/Props_Fntensor.v
theories/Ltprint_Model.v
theories/Spec_Ltprint.v
theories/Props_Ltprint.v
theories/Metinv_Model.v
theories/Props_Metinv.v
theories/Flatten_Model.v
theories/Spec_Flatten.v
theories/Props_Flatten.v
theories/Oprint_Model.v
theories/Spec_Oprint.v
theories/Props_Oprint.v
