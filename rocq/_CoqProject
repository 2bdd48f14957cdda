-Q theories Verif
theories/Affine_Model.v
theories/Affine_Proofs.v
theories/Affine_Props.v
theories/Affine_Spec.v
theories/Analyser_Model.v
theories/Analyser_Proofs.v
theories/Analyser_Props.v
theories/Analyser_Spec.v
theories/Approx_Model.v
theories/Approx_Proofs.v
theories/Approx_Props.v
theories/Approx_Spec.v
theories/AutomatonComp_Props.v
theories/Automaton_Build_Proofs.v
theories/Automaton_Check_Proofs.v
theories/Automaton_Comp_Proofs.v
theories/Automaton_Model.v
theories/Automaton_Proofs.v
theories/Automaton_Props.v
theories/Automaton_Sort_Proofs.v
theories/Automaton_Spec.v
theories/Ball_Model.v
theories/Ball_Proofs.v
theories/Ball_Props.v
theories/Ball_Spec.v
theories/Bounder_Math.v
theories/Bounder_Model.v
theories/Bounder_Proofs.v
theories/Bounder_Props.v
theories/Bounder_Spec.v
theories/Bounds_Model.v
theories/Bounds_Proofs.v
theories/Bounds_Props.v
theories/Bounds_Spec.v
theories/Box_Float_Model.v
theories/Box_Model.v
theories/Box_Num_Proofs.v
theories/Box_Parts_Proofs.v
theories/Box_Proofs.v
theories/Box_Props.v
theories/Box_Shape_Props.v
theories/Box_Spec.v
theories/Box_Union_Proofs.v
theories/Cell_Model.v
theories/Cell_Proofs.v
theories/Cell_Props.v
theories/Cell_Spec.v
theories/Cheb_Model.v
theories/Cheb_Proofs.v
theories/Cheb_Props.v
theories/Cheb_Spec.v
theories/ConstraintSolver_Model.v
theories/ConstraintSolver_Proofs.v
theories/ConstraintSolver_Props.v
theories/ConstraintSolver_Spec.v
theories/Diff_Comp_Proofs.v
theories/Diff_Elem_Proofs.v
theories/Diff_Extra_Proofs.v
theories/Diff_Flow_Proofs.v
theories/Diff_Inst.v
theories/Diff_Int_Proofs.v
theories/Diff_Model.v
theories/Diff_O_Proofs.v
theories/Diff_Props.v
theories/Diff_Ring_Proofs.v
theories/Diff_Series_Proofs.v
theories/Diff_Spec.v
theories/Diff_Uni_Proofs.v
theories/Diff_Unique_Proofs.v
theories/Diff_Vec_Proofs.v
theories/Enclosure_Model.v
theories/Enclosure_Proofs.v
theories/Enclosure_Props.v
theories/Enclosure_Spec.v
theories/Enclosure_Taylor_Proofs.v
theories/ErrBound_Model.v
theories/ErrBound_Proofs.v
theories/ErrBound_Props.v
theories/ErrBound_Spec.v
theories/Evolver_Model.v
theories/Evolver_Proofs.v
theories/Evolver_Props.v
theories/Evolver_Spec.v
theories/Exact_Bounds_Proofs.v
theories/Exact_Dyadic_Proofs.v
theories/Exact_Model.v
theories/Exact_Proofs.v
theories/Exact_Props.v
theories/Exact_Spec.v
theories/Exact_Text_Proofs.v
theories/Expr_Deriv_Proofs.v
theories/Expr_Model.v
theories/Expr_Proofs.v
theories/Expr_Props.v
theories/Expr_Spec.v
theories/Float_Model.v
theories/Float_Proofs.v
theories/Float_Spec.v
theories/FunctionSet_Inst.v
theories/FunctionSet_Model.v
theories/FunctionSet_Proofs.v
theories/FunctionSet_Props.v
theories/FunctionSet_Spec.v
theories/HybridEvolver_Exact_Proofs.v
theories/HybridEvolver_Examples.v
theories/HybridEvolver_Lower_Proofs.v
theories/HybridEvolver_Model.v
theories/HybridEvolver_Proofs.v
theories/HybridEvolver_Props.v
theories/HybridEvolver_Spec.v
theories/HybridEvolver_Total_Proofs.v
theories/HybridEvolver_Witness.v
theories/HybridPaving_Model.v
theories/HybridPaving_Proofs.v
theories/HybridPaving_Props.v
theories/HybridPaving_Spec.v
theories/HybridSet_Model.v
theories/HybridSet_Proofs.v
theories/HybridSet_Props.v
theories/HybridSet_Spec.v
theories/Integrator_Model.v
theories/Integrator_Proofs.v
theories/Integrator_Props.v
theories/Integrator_Spec.v
theories/LRU_Model.v
theories/LRU_Proofs.v
theories/LRU_Props.v
theories/LRU_Spec.v
theories/Labelled_Model.v
theories/Labelled_Proofs.v
theories/Labelled_Props.v
theories/Labelled_Spec.v
theories/Logical_Model.v
theories/Logical_Proofs.v
theories/Logical_Props.v
theories/Logical_Spec.v
theories/MCheb_Model.v
theories/MCheb_Proofs.v
theories/MCheb_Props.v
theories/MCheb_Spec.v
theories/MProd_Exists.v
theories/MProd_Model.v
theories/MProd_Proofs.v
theories/MProd_Props.v
theories/Newton_Math.v
theories/Optimiser_Float_Model.v
theories/Optimiser_Float_Proofs.v
theories/Optimiser_Math.v
theories/Optimiser_Model.v
theories/Optimiser_Proofs.v
theories/Optimiser_Props.v
theories/Optimiser_Spec.v
theories/Paver_Inst.v
theories/Paver_Model.v
theories/Paver_Proofs.v
theories/Paver_Props.v
theories/Paver_Spec.v
theories/Paving_Model.v
theories/Paving_Proofs.v
theories/Paving_Props.v
theories/Paving_Spec.v
theories/Poly_Model.v
theories/Poly_Proofs.v
theories/Poly_Props.v
theories/Poly_Spec.v
theories/Proc_Grad_Proofs.v
theories/Proc_Hull_Proofs.v
theories/Proc_Model.v
theories/Proc_Proofs.v
theories/Proc_Props.v
theories/Proc_Spec.v
theories/Product_Model.v
theories/Product_Proofs.v
theories/Product_Props.v
theories/Product_Spec.v
theories/Real_Inst.v
theories/Real_Model.v
theories/Real_Proofs.v
theories/Real_Props.v
theories/Real_Spec.v
theories/Real_Use_Proofs.v
theories/Simplex_Alg_Proofs.v
theories/Simplex_Float_Model.v
theories/Simplex_Float_Proofs.v
theories/Simplex_Model.v
theories/Simplex_Proofs.v
theories/Simplex_Props.v
theories/Simplex_Spec.v
theories/Solver_Float_Model.v
theories/Solver_Float_Proofs.v
theories/Solver_LU_Proofs.v
theories/Solver_Loop_Proofs.v
theories/Solver_Model.v
theories/Solver_Proofs.v
theories/Solver_Props.v
theories/Solver_Spec.v
theories/Taylor_Arith_Proofs.v
theories/Taylor_Model.v
theories/Taylor_Proofs.v
theories/Taylor_Props.v
theories/Taylor_Range_Proofs.v
theories/Taylor_Spec.v
theories/Tree_Model.v
theories/Tree_Proofs.v
theories/Tree_Props.v
theories/Tree_Spec.v
theories/Union_Model.v
theories/Union_Proofs.v
theories/Union_Props.v
theories/Union_Spec.v
theories/Word_Model.v
theories/Word_Proofs.v
theories/Word_Props.v
