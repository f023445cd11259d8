muts=[]
def M(id,d,f,old,new,claim,edit=None):
    muts.append(dict(id=id,**{'def':d},edits=[(f,old,new)],edit=edit or f'{old!r} -> {new!r}',claim=claim))
# store
M('s1','tri_index','ModelStore','u32 (u32 (n * u32 (n + 1)) / 2 + m)','u32 (u32 (n * u32 (n - 1)) / 2 + m)','C01: distinct (n,m) get distinct cells')
M('s2','tri_size','ModelStore','u32 (u32 (p + 1) * u32 (p + 2)) / 2','u32 (u32 (p + 1) * u32 p) / 2','C01: every (n,m) of order p is inside the buffer')
M('s3','add_to_coeff','ModelStore','(plus old v)','v','C01: AddToCoeff adds to the stored value')
M('s4','lec_n_offset','ModelStore','u32 (u32 (u32 (u32 (p + 1) * u32 (p + 1)) * u32 (n + 1)) * n) / 2','u32 (u32 (u32 p * u32 (n + 1)) * n) / 2','C02: the four-index table is injective')
M('s5','lec_index','ModelStore','u32 mm + nn)','u32 mm)','C02: negative mm is in range')
M('s6','lec_copy','ModelStore','memcpy_cells 8 orig (lec_size p)','memcpy_cells 8 orig (8 * lec_size p)','C03 (finding): the copy constructor loses 7/8 of the table; here the code is fixed, so the refutation must fail')
M('s7','list_upd/arr_set','ModelStore','(Z.to_nat i <? length buf)%nat','(Z.to_nat i <=? length buf)%nat','C01: out-of-bounds store detected','<? to <=? (off by one in bounds)')
# order
M('o1','m2l_accesses','ModelOrder','[Coef p nn (Z.abs mm); Leg (nn + n) (Z.abs (mm - m)); M2Ltab n m nn mm])','[Coef p nn (Z.abs mm); Leg (nn + n + 1) (Z.abs (mm - m)); M2Ltab n m nn mm])','C10: order 10 stays in the tables')
M('o2','in_bounds','ModelOrder','| Leg n m | LegDer n m => 0 <= n <= 20 /\\ 0 <= m <= n','| Leg n m | LegDer n m => 0 <= n <= 18 /\\ 0 <= m <= n','C10: largest safe order is exactly 10 (table shrunk)')
M('o3','in_bounds','ModelOrder','| Leg n m | LegDer n m => 0 <= n <= 20 /\\ 0 <= m <= n','| Leg n m | LegDer n m => 0 <= n <= 24 /\\ 0 <= m <= n','C10: order 11 is out of bounds (Legendre table larger: M2L table still bounds it?)')
M('o4','l2l_accesses','ModelOrder','Leg (nn - n) (Z.abs (mm - m)); L2Ltab n m]','Leg (n - nn) (Z.abs (mm - m)); L2Ltab n m]','C10: L2L never indexes with a negative degree')
M('o5','m2m_accesses guard','ModelOrder','if Z.abs (m - mm) >? n - nn then []','if Z.abs (m - mm) >? n - nn + 1 then []','C10: M2M skips the missing coefficients')
# value
M('v1','step CopyNew','ModelValue','                                                           o_zero := o_zero so; o_ptr := Some l |}];\n                                 hp := h2 |}','                                                           o_zero := o_zero so; o_ptr := o_ptr so |}];\n                                 hp := h2 |}','C04: copies are independent (shallow copy)','copy constructor keeps the source pointer')
M('v2','step Assign','ModelValue','let d\' := {| o_p := o_p so; o_center := o_center so; o_zero := o_zero so;','let d\' := {| o_p := o_p so; o_center := o_center so; o_zero := o_zero d;','C04: assignment copies every member')
M('v3','step Destroy','ModelValue','''            match del (hp s) (o_ptr o) with
            | Some h => Some {| objs := list_upd (objs s) id None; hp := h |}''','''            match Some (hp s) with
            | Some h => Some {| objs := list_upd (objs s) id None; hp := h |}''','C04: destructor releases the buffer (leak)')
M('v4','step Assign','ModelValue','match (if frees then del (hp s) (o_ptr d) else Some (hp s)) with','match (if negb frees then del (hp s) (o_ptr d) else Some (hp s)) with','C04: which class leaks on assignment')
M('v5','step NewDefault','ModelValue','o_zero := true; o_ptr := None |}];','o_zero := false; o_ptr := None |}];','C04: default expansions are zero')
M('v6','step SetC','ModelValue','match set_coeff b n m (Val v) with','match set_coeff b m n (Val v) with','C04: SetCoeff writes (n,m)')
# bc
M('b1','flux','ModelBc','acc + d_wind b i d * d_normal b i d','acc - d_wind b i d * d_normal b i d','C27: Neumann datum is wind . n')
M('b2','prepare_dof','ModelBc','v_dphi := upd (v_dphi v) i 0; v_rhs := upd (v_rhs v) i 0','v_dphi := v_dphi v; v_rhs := upd (v_rhs v) i 0','C27: material neither Dirichlet nor Neumann resets dphi_dn')
M('b3','prepare_dof','ModelBc','{| v_phi := upd (v_phi v) i (d_pot b i); v_dphi := v_dphi v; v_rhs := upd (v_rhs v) i (d_pot b i) |}','{| v_phi := upd (v_phi v) i (d_pot b i); v_dphi := v_dphi v; v_rhs := v_rhs v |}','C27: tmp_rhs holds the Dirichlet datum')
M('b4','prepare_cell','ModelBc','if own i then prepare_dof b c v i else v','prepare_dof b c v i','C27: only owned dofs written')
M('b5','neumann_shift','ModelBc','pot first0 - phi first0','phi first0 - pot first0','C28: pure Neumann solution pinned at the first dof')
M('b6','neumann_shift','ModelBc','if have_dirichlet then phi','if negb have_dirichlet then phi','C28: no shift with a Dirichlet part')
M('b7','ones_call','ModelBc','(oc_size_of s =? fst q)%nat','(oc_size_of s <=? fst q)%nat','C29: cache refreshed when the size changes')
M('b8','quad_call','ModelBc','match s with [] => mk (fst q) (snd q) | _ => s end','mk (fst q) (snd q)','C53/C50 finding: the singular quadratures are stale; here rebuilt each time')
M('b9','inverse_table','ModelBc','upd t (perm i) i','upd t i (perm i)','C50/C54: tables are mutually inverse')
M('b10','vec_index','ModelBc','nvec / dim * d + sub_to_orig i','nvec * d + sub_to_orig i','component d of scalar dof i')
M('b11','stretch','ModelBc','if (dim =? 3)%nat then upd v2 (vperm (ii + m)%nat) (v2 (vperm (ii + m)%nat) * az) else v2','if (dim =? 3)%nat then upd v2 (vperm (ii + 2*m)%nat) (v2 (vperm (ii + 2*m)%nat) * az) else v2','finding: z axis scaling applied to y; code fixed here')
# bem
M('m1','sub_entries','ModelBem','sub_entries ghost src t (acc - w * v)','sub_entries ghost src t (acc + w * v)','C15: constrained rows enforce x_i - sum w x_j')
M('m2','proc_increment','ModelBem','| None => Some 0\n  end.\n\nFixpoint sum_opt','| None => Some (src i)\n  end.\n\nFixpoint sum_opt','C15: unconstrained rows are those of the matrix')
M('m3','co_distribute_rhs','ModelBem','match c i with Some l => l_inhom l | None => Some (rhs i) end\n','match c i with Some l => Some 0 | None => Some (rhs i) end\n','C16: rhs of a constrained row is its inhomogeneity')
M('m4','constr_cpu_set','ModelBem','own i && ((j =? i)%nat ||','(j =? i)%nat || (own i &&','ghost set','skip')
M('m5','vmult','ModelBem','let dphi := scale src (b_dir b) in\n  let dst','let dphi := scale src (b_neu b) in\n  let dst','C17: vmult = N phi + alpha phi - D dphi on complementary parts')
M('m6','vmult','ModelBem','then fun i => (b_D b dphi i * -1 + b_N b phi i) + phi i * b_alpha b i','then fun i => (b_D b dphi i * -1 + b_N b phi i) + src i * b_alpha b i','C17: alpha acts on phi')
M('m7','vmult FMM','ModelBem','else fun i => ((0 + b_D b dphi i) * -1 + b_N b phi i) + phi i * b_alpha b i','else fun i => ((0 + b_D b dphi i) + b_N b phi i) + phi i * b_alpha b i','C17/C18: FMM and Direct agree')
M('m8','compute_rhs','ModelBem','then fun i => (b_N b phi i + phi i * b_alpha b i) * -1 + b_D b dphi i','then fun i => (b_N b phi i + phi i * b_alpha b i) + b_D b dphi i','rhs sign')
M('m9','compute_rhs FMM','ModelBem','((dst0 i + b_N b phi i) + phi i * b_alpha b i) * -1 + b_D b dphi i','(b_N b phi i + phi i * b_alpha b i) * -1 + b_D b dphi i','finding: accumulates on dst0?')
M('m10','scatter_phi','ModelBem','Definition scatter_phi (b : bem) (phi sol : vec) : vec :=\n  fun i => if Req_EM_T (b_dir b i) 0 then sol i else phi i.','Definition scatter_phi (b : bem) (phi sol : vec) : vec :=\n  fun i => if Req_EM_T (b_dir b i) 0 then phi i else sol i.','solution goes to phi on Neumann nodes')
M('m11','fresh_ones','ModelBem','shift (fun _ => 0) (-1)','shift (fun _ => 0) 1','C19: alpha = -N 1, kernel of constants')
M('m12','indicator_cell','ModelBem','fold_left (fun f k => upd f k 0) (c_dofs c) nn, true)','fold_left (fun f k => upd f k 1) (c_dofs c) nn, true)','indicator vectors are complementary')
M('m13','indicator_cell','ModelBem','if (c_sub c =? me)%nat then\n    if is_dirichlet_cell','if negb (c_sub c =? me)%nat then\n    if is_dirichlet_cell','only local cells')
M('m14','have_dirichlet','ModelBem','existsb (fun me => snd (indicators_local ids cells me)) (seq 0 np)','forallb (fun me => snd (indicators_local ids cells me)) (seq 0 np)','have_dirichlet is the OR over processes')
M('m15','double_nodes','ModelBem','(existsb (Nat.eqb i) edge && existsb (Nat.eqb j) edge &&','(existsb (Nat.eqb i) edge &&','double nodes symmetric')
M('m16','double_nodes','ModelBem','1 / 10 ^ 10','1 / 10 ^ 8','double-node tolerance 1e-10')
M('m17','first_of_doubles','ModelBem','match find (k_dir k) (k_doubles k i) with','match find (fun j => negb (k_dir k j)) (k_doubles k i) with','first double is the first Dirichlet one')
M('m18','coplanar_test','ModelBem','flt (fdiv nd nd) (1 / 10 ^ 4)','flt (Some nd) (1 / 10 ^ 4)','finding: the coplanarity test is never true')
M('m19','this_normal_gradient','ModelBem','omul (fdiv 1 (1 - c ^ 2)) (dot3 sj ni + dot3 si nj * c)','omul (fdiv 1 (1 - c ^ 2)) (dot3 si nj + dot3 si nj * c)','continuous gradient constraint is exact')
M('m20','dirichlet_double','ModelBem','else set_inhom (add_line c j) j (Some (k_rhs k i))','else set_inhom (add_line c j) j (Some (k_rhs k j))','Neumann double of a Dirichlet node takes its potential')
M('m21','neumann_double','ModelBem','add_entry (add_line c j) j i 1.\n\nDefinition constraint_step','add_entry (add_line c j) j i (-1).\n\nDefinition constraint_step','Neumann doubles constrained')
M('m22','constraint_step','ModelBem','filter (fun j => negb (j =? i)%nat) (k_doubles k i)','k_doubles k i','first double not constrained by itself')
M('m23','band_cols','ModelBem','let stop := Nat.min (i + h) n in','let stop := Nat.min (i + h + 1) n in','band pattern')
M('m24','band_cols','ModelBem','if (h <? i)%nat then (i - h)%nat else 0%nat','(i - h + 1)%nat','band starts')
M('m25','band_row','ModelBem','(if (i =? j)%nat then [(i, j, alpha i)] else [])','[(i, j, alpha i)]','alpha only on diagonal')
M('m26','band_row','ModelBem','else [(i, j, - D i j)]','else [(i, j, D i j)]','sign of D in the preconditioner')
M('m27','init_prec','ModelBem','then - nr_D e else nr_N e','then nr_D e else nr_N e','sign')
M('m28','init_prec','ModelBem','(dir (nr_j e))','(dir (nr_i e))','column test')
M('m29','prec_row_constrained','ModelBem','fold_left (fun f e => upd f (fst e) (snd e)) (l_entries l) (upd (fun _ => 0) i 1)','fold_left (fun f e => upd f (fst e) (- snd e)) (l_entries l) (upd (fun _ => 0) i 1)','finding: constrained rows have the wrong sign of entries')
M('m30','prec_row','ModelBem','if Req_EM_T (dir i) 0 then upd r i (r i + alpha i) else upd r i (r i + 0)','upd r i (r i + alpha i)','alpha only on Neumann rows')
muts=[m for m in muts if m['id']!='m4']
