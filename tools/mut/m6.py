muts=[]
def M(id,d,f,old,new,claim,edit=None):
    muts.append(dict(id=id,**{'def':d},edits=[(f,old,new)],edit=edit or f'{old!r} -> {new!r}',claim=claim))
E='ModelErr'
M('ye1','linfty',E,'Rmax a (Rabs (v i))','Rmax a (v i)','max norm without the absolute value')
M('ye2','l2',E,'sqrt (fold_left (fun a i => (a + v i * v i)%R) (seq 0 m) 0%R)','fold_left (fun a i => (a + v i * v i)%R) (seq 0 m) 0%R','L2 norm without the square root')
M('ye3','grad_exact',E,'upd v (vo2s (d * n + i)) (wind (support (o2s i)) d)','upd v (vo2s (d * n + i)) (wind (support (if Nat.eqb (o2s i) n then i else i)) d)','gradient error compares with the wind at another node')
M('ye4','dphi_exact',E,'normals (vo2s (i + d * n))','normals (if Nat.eqb (vo2s 0) n then i + d * n else i + d * n)','normal error uses the un-renumbered normals')
M('ye5','dphi_exact',E,'(v (o2s i) + normals','(normals','dphi error overwrites instead of accumulating the components')
M('ye6','phi_cells',E,'(eval phi q - potential (point q))','(eval phi q + potential (point q))','sign of the exact potential')
M('ye7','grad_cells',E,'cell_l2 (quads c) dim','cell_l2 (quads c) 1','only the first component of the gradient error')
M('ye8','compute_errors',E,'e_dphi_inf := linfty n dphi_node_error','e_dphi_inf := linfty n phi_node_error','swapped error vectors')
M('ye9','phi_node_error',E,'(potential (support i) * -1 + 1 * phi i)','(potential (support i) * -1 + phi i * phi i)','wrong sadd')
M('ye10','cell_l2',E,'snd q * fold_left','fold_left','weights dropped from integrate_difference')
O='ModelOwn'
M('yo1','assoc_step',O,'Some (Nat.min s (sub c))','Some (sub c)','interface dofs go to the last visited subdomain')
M('yo2','subwise_dof',O,'(upd new i next, S next) else (new, next)','(upd new next i, S next) else (new, next)','renumbering table inverted')
M('yo3','subwise_loop',O,'(seq 0 n) st) (seq 0 np)','(seq 0 n) st) (seq 0 (np - 1))','last subdomain not numbered')
M('yo4','s2o',O,'inverse_table (nu_n U) o2s','o2s','sub_wise_to_original is not the inverse')
M('yo5','vcpu_step',O,'vec_index nvec (nu_dim U) vo2s s2o d i','vec_index nvec (nu_dim U) vo2s o2s d i','vector ownership computed with the wrong table')
M('yo6','vcpu_step',O,'true) (seq 0 (nu_dim U)) v else v','true) (seq 0 (nu_dim U - 1)) v else v','last component not owned')
M('yo7','cpu_set',O,'is_sub (domain_of i) me.\n  Definition vcpu','is_sub (association (nu_cells U) (nu_dofs U) (nu_sub U) i) me.\n  Definition vcpu','ownership from the association before the renumbering')
M('yo8','ghosted',O,'Nat.eqb (nu_sub U c) me && memb i (dofs_now c)','Nat.eqb (nu_sub U c) me && memb i (nu_dofs U c)','ghost set in the old numbering')
M('yo9','first_owned',O,'find (cpu_set me) (seq 0 (nu_n U))','if Nat.eqb (nu_n U) 0 then None else Some 0','first owned dof assumed to be 0')
M('yo10','shift0',O,'Some (pot i - phi i)%R','Some (phi i - pot i)%R','shift with the wrong sign')
M('yo11','touch_first',O,'upd dphi i (dphi i)','upd dphi i (phi i)','touching the first entry changes it')
R='ModelRules'
M('yr1','rule_at',R,'point_kernel dim m (sp_at P c idx q) (sp_normal P c idx q) (node i)','point_kernel dim m (node i) (sp_normal P c idx q) (sp_at P c idx q)','R reversed in the singular rules')
M('yr2','point_kernel',R,'dotn dim (kernel_D dim (difference x y)) n','kernel_s dim (difference x y)','neumann matrix gets the single layer')
M('yr3','kernel_s',R,'if Nat.eqb dim 3 then ModelKernel.kernels3_d r else ModelKernel.kernels2_d r','ModelKernel.kernels3_d r','3D kernel also in 2D')
M('yr4','regular_kern',R,'jxw := rp_jxw P','jxw := fun _ => 1%R','JxW dropped')
B='ModelBem'
M('yb1','loc_read',B,'if ghost j then Some (src j) else None','Some (src j)','reads of non-ghost entries never fail')
M('yb2','constr_cpu_set',B,'existsb (fun e => (fst e =? j)%nat) (l_entries l)','existsb (fun e => (fst e =? S j)%nat) (l_entries l)','ghosts of the constraint lines off by one')
M('yb3','scatter_dphi',B,'if Req_EM_T (b_dir b i) 0 then dphi i else sol i','if Req_EM_T (b_dir b i) 0 then sol i else dphi i','write-back swapped')
M('yb4','compute_alpha',B,'compute_alpha (N : vec -> vec) (ones : vec) : vec := N ones','compute_alpha (N : vec -> vec) (ones : vec) : vec := fun i => (- N ones i)%R','alpha with the wrong sign')
M('yb5','is_dirichlet_cell',B,'existsb (fun d => (d =? c_mat c)%nat) ids','forallb (fun d => (d =? c_mat c)%nat) ids','a cell is Dirichlet only if all ids match')
M('yb6','indicators_local',B,'(fun _ => 0, shift (fun _ => 0) 1, false)','(fun _ => 0, shift (fun _ => 0) 0, false)','neumann_nodes not initialised to one')
M('yb7','dot3',B,'sumn 3 (fun d => a d * b d)','sumn 2 (fun d => a d * b d)','scalar product of two components')
M('yb8','other_normal_gradient',B,'dot3 si nj + dot3 sj ni * c','dot3 si nj - dot3 sj ni * c','sign in the edge formula')
M('yb9','add_entry',B,'l_entries l ++ [(j, w)]','[(j, w)]','add_entry overwrites the line')
M('yb10','set_inhom',B,'l_entries := l_entries l; l_inhom := v','l_entries := []; l_inhom := v','set_inhomogeneity clears the entries')
M('yb11','compute_constraints',B,'fold_left (constraint_step k) (seq 0 (k_n k))','fold_left (constraint_step k) (seq 0 (k_n k - 1))','last dof not visited')
M('yb12','near_N',B,'near_N (es : list near) : mat := fun i j => suml (filter (at_ij i j) es) nr_N','near_N (es : list near) : mat := fun i j => suml (filter (at_ij i j) es) nr_D','near blocks swapped')
M('yb13','prec_row_free',B,'if (j <? n)%nat && pat i j then init i j else 0','if (j <? n)%nat then init i j else 0','entries outside the pattern')
M('yb14','in_band_pattern',B,'existsb (Nat.eqb j) (band_cols n band i)','existsb (Nat.eqb i) (band_cols n band j)','pattern transposed')
C='ModelBc'
M('yc1','prepare_bem_vectors',C,'v_phi := fun _ => 0; v_dphi','v_phi := fun _ => 1; v_dphi','phi not reset')
M('yc2','vector_shift',C,'if own i then v i + s else v i','v i + s','shift touches entries of others')
K='ModelCache'
M('yk1','digits',K,'digits f (n / 10) ++ [Dig (n mod 10)]','[Dig (n mod 10)] ++ digits f (n / 10)','digits reversed')
M('yk2','find',K,'if N.eqb k\' k then Some v else find k r','if N.leb k\' k then Some v else find k r','lookup returns the entry of another key')
M('yk3','fresh',K,'m_cache := []; m_new := 0','m_cache := []; m_new := 1','counter of new points starts at one')
D='ModelDriver'
M('yd1','reinit',D,'d_bem := Some (d_mesh s)','d_bem := d_bem s','reinit does not follow the mesh')
M('yd2','solve_problem',D,'d_log := d_log s ++ [(d_mesh s, d_bem s, phi)]','d_log := [(d_mesh s, d_bem s, phi)] ++ d_log s','output order reversed')
M('yd3','adaptive_refinement',D,'Some phi => adapt (d_mesh s) phi','Some phi => d_mesh s','refinement dropped')
M('yd4','set_manifold',D,'if Nat.eqb j id then Some p else t j','if Nat.eqb j id then match t j with None => Some p | x => x end else t j','set_manifold does not overwrite')
M('yd5','to_int',D,'if (u <? 2 ^ 31)%Z then u','if (u <=? 2 ^ 31)%Z then u','conversion boundary')
M('yd6','flagged',D,'Some f => [(c, f)] | None => []','Some f => [(c, f); (c, f)] | None => []','cells flagged twice')
H='ModelHyp'
M('yh1','cross',H,'vz a * vx b - vx a * vz b','vx a * vz b - vz a * vx b','cross product sign')
M('yh2','candidate',H,'Some (dot a (cross p q), s)','Some (dot a (cross q p), s)','orientation of the neighbour test')
M('yh3','next_index',H,'(100, 0%nat)','(100, 1%nat)','initial index of the search')
M('yh4','ordered',H,'(projected avg n0) rest','(projected avg n0) (rev rest)','remaining normals misaligned with projections')
P='ModelProj'
M('yp1','matrix_entry',P,'Nat.eqb (fst (fst x)) d && Nat.eqb (snd (fst x)) e','Nat.eqb (fst (fst x)) d && Nat.eqb (snd (fst x)) d','mass matrix lumped on the diagonal')
M('yp2','rhs_entry',P,'suml (seq 0 np) (fun me => suml (rhs_adds P G me)','suml (seq 0 1) (fun me => suml (rhs_adds P G me)','right hand side of process 0 only')
A='ModelAssemble'
M('ya1','singular_index',A,'first_in (o_dbl I i) (o_cdofs I c) 0','first_in [i] (o_cdofs I c) 0','double nodes not treated as singular')
M('ya2','select',A,'simpson => QSimpson | trapez => QTrapez','simpson => QTrapez | trapez => QSimpson','rules swapped')
E2='ModelConform'
M('yf1','face_vert',E2,'| 1, 0 => 1 | 1, _ => 3 |','| 1, 0 => 3 | 1, _ => 1 |','orientation of face 1')
M('yf2','mid',E2,'(1 # 2) * (py a + py b)','(1 # 2) * (py a - py b)','midpoint')
M('yf3','doubles',E2,'(seq 0 (t_nv m))','(seq 1 (t_nv m - 1))','vertex 0 not a double',)
M('yf4','edge_cells',E2,'filter at_boundary (t_cells m)','t_cells m','all cells as edge cells')
X='ModelExp'
M('yx1','distance',X,'sqrt (square (psub a b))','square (psub a b)','distance squared')
M('yx2','atan2',X,'(if Rle_dec 0 y then atan (y / x) + PI else atan (y / x) - PI)','(atan (y / x) + PI)','atan2 branch (harmless: same angle mod 2 pi)')
M('yx3','re_pow_i',X,'cos (IZR k * (PI / 2))','sin (IZR k * (PI / 2))','imaginary part of i^k')
M('yx4','down_product',X,'down_product (f * INR k) j','down_product (f * INR j) j','factorial off by one')
M('yx5','add_to',X,'Cplus (M i) a else M i','a else M i','coefficients overwritten')
M('yx6','nm_pairs',X,'(seq 0 (n + 1))) (seq 0 (p + 1))','(seq 0 (n + 1))) (seq 0 p)','last degree dropped')
M('yx7','m2m_coeff',X,'osum (seq 0 (n + 1)) (fun nn => osum (sym_range nn) (m2m_term','osum (seq 0 n) (fun nn => osum (sym_range nn) (m2m_term','last degree dropped in M2M')
M('yx8','l_convert',X,'psub (e_center other) (e_center e)','psub (e_center e) (e_center other)','M2L direction reversed')
M('yx9','l_evaluate',X,'spher (psub x (e_center e))','spher (psub (e_center e) x)','L evaluated at the reflected point')
F='ModelFmm'
M('yf5','big_quads',F,'(seq 0 (near_levels I st b))).\nDefinition mem','(seq 1 (near_levels I st b - 1))).\nDefinition mem','first sublevel dropped')
M('yf6','descend',F,'(seq 1 (o_N I)) (lz E, out)','(seq 1 (o_N I - 1)) (lz E, out)','finest level not visited')
M('yf7','level_pattern',F,'(bigger I st level b s)))\n','(smaller I st level b s)))\n','pattern from the wrong blocks')
N='ModelKernel'
M('yn1','kernels3_d',N,'kernels3_d (v : vec) : R := let r := norm 3 v in 1 / (r * 4 * PI)','kernels3_d (v : vec) : R := let r := norm 3 v in 1 / (r * 2 * PI)','factor')
M('yn2','kernels3_D',N,'v i / (- 4 * PI * r2 * r)','v i / (- 4 * PI * r2)','power')
M('yn3','kernelsH2_H',N,'- v 0%nat * v 0%nat + v 1%nat * v 1%nat\n','v 0%nat * v 0%nat + v 1%nat * v 1%nat\n','sign in the Hessian')
T='ModelOctree'
M('yt1','cell_of',T,'q / o_nqc I','q mod o_nqc I','cell of a quadrature point')
M('yt2','dof_elems',T,'filter (fun c => Nat.ltb c (o_nc I)) (o_old I d) ++\n','','stale entries ignored')
M('yt3','push_all',T,'f k ++ [x] else f k\'','[x] else f k\'','block lists overwritten')
M('yt4','init_state',T,'st_dtb := fun d => if Nat.ltb d (o_nd I) then [0] else []','st_dtb := fun d => if Nat.ltb (S d) (o_nd I) then [0] else []','last dof not in the root block')
M('yt5','faces_meet',T,'(r toll) || Qle_bool','(r toll) && Qle_bool','faces meet on both sides')
M('yt6','refine1',T,'[] => [j] | ks => ks','[] => [] | ks => ks','childless neighbours dropped')
M('yt7','pmax',T,'r (h + py (b_min b))','r (h + px (b_min b))','wrong corner')
S='ModelSing'
M('ys1','eta_g',S,'jac 2%nat 0%nat * jac 0%nat 1%nat - jac 2%nat 1%nat * jac 0%nat 0%nat','jac 2%nat 1%nat * jac 0%nat 0%nat - jac 2%nat 0%nat * jac 0%nat 1%nat','normal component sign')
M('ys2','V_F2',S,'q_A d t ^ 3 * N0 d','q_A d t ^ 2 * N0 d','power')
M('ys3','N1',S,'d_dN d 0%nat * cos t + d_dN d 1%nat * sin t','d_dN d 0%nat * sin t + d_dN d 1%nat * cos t','sin/cos swapped')
M('ys4','beta',S,'1 / q_A d t','q_A d t','beta inverted')
M('ys5','W_fun',S,'1 / vnorm R_ ^ 3 * R_ i * N','1 / vnorm R_ ^ 2 * R_ i * N','power')
M('ys6','csi_1',S,'| 2%nat => P2 (1 - px eta) (0 - py eta)','| 2%nat => P2 (0 - px eta) (1 - py eta)','corner of a face')
L='ModelColl'
M('yl1','api_next',L,'s_n0 := y_n y; s_first','s_n0 := s_n0 s; s_first','cached size not updated')
M('yl2','p_normals',L,'p_project Normals Normals_matrix Normals_rhs (y_itn y)','(if me =? 0 then p_project Normals Normals_matrix Normals_rhs (y_itn y) else [])','normals on process 0 only')
M('yl3','p_gmres',L,'[Call (Use Krylov); Call Allreduce]','[Call (Use Krylov)] ++ (if own 0 then [Call Allreduce] else [])','reduction on one process')
M('yl4','p_reinit',L,'[Call Allreduce; Call (Use Dirichlet_nodes)]','[Call (Use Dirichlet_nodes)] ++ (if hd then [] else [Call Allreduce])','reduction skipped when a Dirichlet cell exists (same on all: harmless)')
M('w7b','eval_body','ModelWork','if owned i then Rd (LExp b) (fun l => add_to (Out i) (evL E (asL l) i)) else done1','if owned i || true then Rd (LExp b) (fun l => add_to (Out i) (evL E (asL l) i)) else done1','C68: evaluation on all nodes (owned entries unchanged)')
M('w14b','fpat_copier','ModelWork','if owned r then for_each (pc_cols d)','if owned r || true then for_each (pc_cols d)','C70: owner test of the copier (row is always owned: expected harmless)')
M('r6b','phi_cells','ModelErr','(eval phi q - potential (point q))%R','(eval (fun i => if Nat.eqb i 0 then phi i else dphi i) q - potential (point q))%R','C72: wrong field')
M('v8b','solves','ModelSolve','co_distribute_rhs c owns (compute_rhs (operator S) (fun _ => 0) rhs) i','co_distribute_rhs (fun _ => None) owns (compute_rhs (operator S) (fun _ => 0) rhs) i','C65: distribute_rhs called')
