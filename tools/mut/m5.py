muts=[]
def M(id,d,f,old,new,claim,edit=None):
    muts.append(dict(id=id,**{'def':d},edits=[(f,old,new)],edit=edit or f'{old!r} -> {new!r}',claim=claim))
def MM(id,d,edits,claim):
    muts.append(dict(id=id,**{'def':d},edits=edits,edit='; '.join(f'{f}: {o!r} -> {n!r}' for f,o,n in edits),claim=claim))
C='ModelColl'
M('q1','p_write_back',C,'map (fun i => if y_isdir y i then w Dphi_dn Insert i else w Phi Insert i) mine','map (fun i => if y_isdir y i then w Dphi_dn Insert i else w Phi Add i) mine','C74: += in the write-back after the insertions of prepare_bem_vectors triggers a hidden assembly')
M('q2','p_fma_preconditioner',C,'    [Call (Compress Final_prec Insert)] ++\n    map (w Final_prec Add) mine ++','    map (w Final_prec Add) mine ++','C74: first compress of the preconditioner dropped')
M('q3','p_errors',C,'[Call (Use Gradients); Call (Use Phi); Call (Use Dphi_dn); Call (Use Normals)]','(if me =? 0 then [Call (Use Gradients); Call (Use Phi); Call (Use Dphi_dn); Call (Use Normals)] else [])','C74: gathering inside the test on rank 0')
M('q4','p_solve_problem',C,'(if me =? 0 then [Peek nonempty] else []) ++ [Call Bcast] ++ p_shift Phi','(if me =? 0 then [Peek nonempty; Call Bcast] else []) ++ p_shift Phi','C74: broadcast only on the root')
M('q5','p_vmult',C,'    (if hd then [] else [Call (Use Serv_phi)] ++ p_shift Serv_phi) ++','    (if existsb (fun c => (c_sub (fst c) =? me) && is_dirichlet_cell (y_ids y) (fst c)) (y_cells y) then [] else [Call (Use Serv_phi)] ++ p_shift Serv_phi) ++','C74: local instead of reduced have_dirichlet_bc')
M('q6','p_products',C,'flat_map (fun b => flat_map (fun i => [w D Add i; w N Add i]) b) (y_down y me) ++','flat_map (fun b => flat_map (fun i => [w D Add i; w N Add i]) b) (y_down y me) ++ [Call (Compress N Add)] ++','C74: FMM products compressed: contributions to other processes delivered')
M('q7','p_hypersingular',C,'    map (fun a => Call (Compress (B_i a) Add)) axes.','    (if y_direct y then map (fun a => Call (Compress (B_i a) Insert)) axes else []).','C74: wrong compress of b_i')
M('q8','p_hypersingular',C,'[Call (Reinit Error_vec); Call (Use Error_vec); Call (Use Error_vec); Call (Use Error_vec); Call (Use Alpha)]','[Call (Reinit Error_vec)] ++ (if me =? 0 then [Call (Use Error_vec); Call (Use Error_vec); Call (Use Error_vec); Call (Use Alpha)] else [])','C74: norms evaluated by the printing process only')
M('q9','p_alpha',C,'(if fresh then [Call (Reinit Ones)]','(if fresh || negb nonempty then [Call (Reinit Ones)]','C74: reinit depending on the process (unreachable when every process owns a node)')
M('q10','p_distribute_rhs',C,'map (w System_rhs Insert) mine ++ [Call (Compress System_rhs Insert)]','map (w System_rhs Insert) mine ++ [Call (Compress System_rhs Add)]','C74: compress(add) after insertions')
M('q11','p_cc_vmult',C,'[Call (Reinit Loc_src); Call (Import Loc_src)] ++\n    p_vmult dst ++','[Call (Reinit Loc_src); Call (Import Loc_src)] ++\n    p_vmult dst ++ map (w dst Insert) mine ++','C74: dst(i) = src(i) before dst(i) += ...')
M('q12','p_band',C,'[Call (MatZero Band_system)]','[]','C74: second solve (survives only if harmless to the collectives)')
M('q13','p_write_back',C,'[First Phi nonempty; First Dphi_dn nonempty;\n     Call','[Call','C74: without the unguarded access a process without nodes is fine (the iff fails)')
M('q14','p_cc_vmult',C,'                                    else [Write dst i Add Wzero (own i)]','                                    else [w dst Add i]','C74: nonzero contributions to other processes by the operator')
M('q15','p_hyp_gradients',C,'[Call (Compress Hyp_gradients Add); Call (Compress Hyp_b Add)] ++','[Call (Compress Hyp_b Add)] ++','C74: compress dropped in compute_gradients_hypersingular')
M('q16','p_assemble_system',C,'[Call (MatZero Neumann_matrix); Call (MatZero Dirichlet_matrix)]','(if nonempty then [Call (MatZero Neumann_matrix); Call (MatZero Dirichlet_matrix)] else [])','C74: harmless when every process owns a node')
M('q17','p_project',C,'[Call (Compress mat Add); Call (Compress rhs Add); Call (Use mat); Call (Use sol)]','[Call (Compress mat Add); Call (Use mat); Call (Use sol)]','C74: rhs not compressed: contributions of neighbours lost (statement allows it only if listed as delivered)')
W='ModelWork'
M('w1','ic_reset',W,'let d1 := {| ic_rows := []; ic_cols := ic_cols d |} in','let d1 := {| ic_rows := ic_rows d; ic_cols := ic_cols d |} in','C68: rows of an earlier item in the sparsity pattern')
M('w2','dc_reset',W,'{| dc_nodes := dc_nodes d2; dc_start := []; dc_rows := dc_rows d2 |}','{| dc_nodes := dc_nodes d2; dc_start := dc_start d2; dc_rows := dc_rows d2 |}','C68: start indices of an earlier block')
M('w3','up_worker',W,'let d3 := {| uc_parent := uc_parent d2; uc_exp := mz E (asC c) |} in','let d3 := {| uc_parent := uc_parent d2; uc_exp := uc_exp d |} in','C68: expansion of an earlier item not cleared')
M('w4','dn_worker',W,'nc_contr := fun _ => 0%R; nc_nodes := nc_nodes d3','nc_contr := nc_contr d3; nc_nodes := nc_nodes d3','C68: contributions of an earlier item not cleared')
M('w5','elem_copier',W,'match asE e b with Some f => Some f | None => d b end','match d b with Some f => Some f | None => asE e b end','C68: insert overwrites (equal contents: expected harmless)')
M('w6','dn_worker',W,'Rd (LExp (b_parent (getb (st_blocks st) b)))','Rd (LExp b)','C68: local expansion of the block instead of its parent')
M('w7','eval_body',W,'if owned i then Rd (LExp b) (fun l => add_to (Out i) (evL E (asL l) i)) else done1','Rd (LExp b) (fun l => add_to (Out i) (evL E (asL l) i))','C68: evaluation on all nodes (owned entries unchanged)')
M('w8','up_copier',W,'Rd (MExp (uc_parent d)) (fun m => Wr (MExp (uc_parent d)) (VM (madd E (asM m) (uc_exp d))) done1)','Rd (MExp (uc_parent d)) (fun m => Wr (MExp (uc_parent d)) (VM (uc_exp d)) done1)','C68: parent expansion overwritten instead of accumulated')
M('w9','dn_copier',W,'Wr (LExp (nc_block d)) (VL (laddl E (asL l) (nc_exp d)))','Wr (LExp 0) (VL (laddl E (asL l) (nc_exp d)))','C68: written to the wrong block')
M('w10','touch_table',W,'Rd Tab (fun t => Wr Tab t k)','Rd Tab (fun t => Wr Tab (VT false) k)','C69: the table is destroyed by the assignment')
M('w11','fill_body',W,'then Wr (Prec i j) (VR (init i j)) done1 else done1','then Wr (Prec j i) (VR (init i j)) done1 else done1','C70: transposed preconditioner')
M('w12','alpha_body',W,'      | Some _ => add_to (Prec i i) 0\n','      | Some _ => add_to (Prec i i) (alpha i)\n','C70: alpha added on constrained rows')
M('w13','fpat_worker',W,'let d2 := {| pc_row := Some i; pc_cols := pc_cols d1 |} in','let d2 := {| pc_row := pc_row d1; pc_cols := pc_cols d1 |} in','C70: row not set')
M('w14','fpat_copier',W,'if owned r then for_each (pc_cols d)','if true then for_each (pc_cols d)','C70: owner test of the copier (row is always owned: expected harmless)')
M('w15','leaf_body',W,'(VM (maddc E (asM m) (x (fst jd)) (phi (snd jd))))','(VM (maddc E (asM m) (x (fst jd)) (phi (fst jd))))','C68: density taken by local index')
M('w16','dn_sub',W,'(evM E (asM m) (nth ii nodes 0%nat))','(evM E (asM m) ii)','C68: multipole evaluated at the wrong node')
M('w17','elem_worker',W,'| _ => upd d b (Some','| _ => upd d 0 (Some','C68: stored under the wrong block')
O='ModelOwn'
M('o1','assoc_step',O,'Some (Nat.min s (sub c))','Some (Nat.max s (sub c))','C71: owner is the smallest process')
M('o2','subwise_dof',O,'if is_sub (assoc i) s then (upd new i next, S next) else (new, next)','if is_sub (assoc i) s then (upd new i next, next) else (new, next)','C71: bijective numbering')
M('o3','vcpu_step',O,'(vec_index nvec (nu_dim U) vo2s s2o d i) true','(vec_index nvec (nu_dim U) vo2s o2s d i) true','C71: vector dofs of the owned nodes')
M('o4','ghosted',O,'existsb (fun c => Nat.eqb (nu_sub U c) me && memb i (dofs_now c))','existsb (fun c => Nat.eqb (nu_sub U c) me && memb i (nu_dofs U c))','C71: ghost set in the new numbering')
M('o5','cpu_set',O,'is_sub (domain_of i) me','is_sub (association (nu_cells U) (nu_dofs U) (nu_sub U) i) me','C71: association of the old numbering')
M('o6','first_owned',O,'find (cpu_set me) (seq 0 (nu_n U))','find (cpu_set me) (seq 1 (nu_n U))','C71: first owned dof')
M('o7','vcpu_set',O,'fold_left (vcpu_step me) (seq 0 (nu_n U)) (fun _ => false)','fold_left (vcpu_step me) (seq 0 (nu_n U - 1)) (fun _ => false)','C71: last node missed')
Er='ModelErr'
M('r1','grad_exact',Er,'upd v (vo2s (d * n + i)) (wind (support (o2s i)) d)','upd v (vo2s (d * n + i)) (wind (support i) d)','C72: exact gradient at the wrong node')
M('r2','dphi_exact',Er,'normals (vo2s (i + d * n))','normals (i + d * n)%nat','C72: renumbering of the normals')
M('r3','compute_errors',Er,'e_phi_l2 := l2 cells phi_cells;','e_phi_l2 := linfty cells phi_cells;','C72: norm of the potential error')
M('r4','dphi_node_error',Er,'(dphi_exact i * -1 + 1 * dphi i)%R','(dphi_exact i + 1 * dphi i)%R','C72: sign')
M('r5','compute_errors',Er,'linfty (dim * n) grad_node_error','linfty n grad_node_error','C72: only the first component')
M('r6','phi_cells',Er,'(eval phi q - potential (point q))%R','(eval dphi q - potential (point q))%R','C72: wrong field')

Rs='ModelResid'
M('x1','residual',Rs,'Some b, Some a => Some (b - a)','Some b, Some a => Some (b + a)','C75: the residual is rhs minus matrix times x')
M('x2','solver_accepts',Rs,'l2_norm (s_n S) (pre r) <= tol','l2_norm (s_n S) r <= tol','C75: which residual is tested')
M('x3','residual',Rs,'co_distribute_rhs c owns (compute_rhs (operator S) (fun _ => 0) rhs) i,','Some (compute_rhs (operator S) (fun _ => 0) rhs i),','C75: distribute_rhs skipped, constrained rows wrong')
