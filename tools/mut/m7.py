muts=[]
def M(id,d,f,old,new,claim,edit=None):
    muts.append(dict(id=id,**{'def':d},edits=[(f,old,new)],edit=edit or f'{old!r} -> {new!r}',claim=claim))
# C84
X='ModelFiles'
M('za1','fields',X,'(nodal (r_normals r)) (nodal (r_surf r))','(nodal (r_normals r)) (nodal (r_normals r))','C84: gradients of the data taken from the normals (only constraint fluxes differ)')
M('za2','is_run',X,'(grad_at_points (run_rhs (fields r) sub np))','(grad_at_points (end_phi r))','C84: surface gradient recomputed from phi (what the label says)')
M('za3','is_run',X,'(at_points (end_dphi r)) (grad_at_points (end_phi r))','(at_points (end_phi r)) (grad_at_points (end_dphi r))','C84: phi and dphi_dn swapped in compute_gradients')
M('za4','run_projection',X,'(vo2s U (fst e), snd e)) (f_con f (vs2o U d))','(fst e, snd e)) (f_con f (vs2o U d))','C84: constraints with un-renumbered parents')
M('za5','nodal',X,'(vo2s U (d * p_n p + j))','(d * p_n p + j)','C84: output vector not permuted')
M('za6','out_phi',X,'end_phi r (o2s U j)','end_phi r (s2o U j)','C84: wrong table in the output')
M('za7','at_points',X,'(fun i => f_shape f c i q * v (nth i (dofs_now U c) 0%nat))%R','(fun i => f_shape f c i q * v (nth i (p_dofs p c) 0%nat))%R','C84: function values with the old dof numbers')
M('za8','out_alpha',X,'b_alpha (operator (run_system (fields r) sub np)) (o2s U j)','b_alpha (operator (run_system (fields r) sub np)) j','C84: alpha not permuted')
M('za9','nodal',X,'ModelProj.distribute run_projection x (vo2s','x (vo2s','C84: hanging nodes not distributed')
M('za10','is_run',X,'(ModelProj.normals_field (f_normal f)) np (r_normals r)','(ModelProj.normals_field (fun c q k => - f_normal f c q k)%R) np (r_normals r)','C84: inward normals')
# C83
X='ModelGeom'
M('zb1','geo_reinit',X,'| Some k => Some {| gs_size := size; gs_map := v;','| Some k => Some {| gs_size := size; gs_map := (if gp_spheroid g && gp_spherical g then stretch dim (gm_m m) (gm_perm m) (gp_x g) (gp_y g) (gp_z g) v else v);','C83: stretched in every cycle (the expected behaviour)')
M('zb2','geo_reinit',X,'gs_mapping := Some k |}','gs_mapping := Some (if gp_fe g then MapFEField else MapQ (gp_degree g)) |}','C83: mapping replaced in later cycles')
M('zb3','geo_reinit',X,'if gp_fe g then geo_distribute (gm_con m) (gm_pos m) else gs_map s','if gp_fe g then gm_pos m else gs_map s','C83: hanging nodes not placed on their parents')
M('zb4','geo_reinit',X,'if gp_spheroid g && gp_spherical g then','if gp_spheroid g then','C83: stretched without a spherical manifold')
M('zb5','geo_reinit',X,'let size := if gp_fe g then (dim * gm_m m)%nat else gs_size s in','let size := (dim * gm_m m)%nat in','C83: vector sized for the Q mapping as well')
M('zb6','geo_run',X,'Some s\' => geo_run dim rest s\' | None => None','Some s\' => geo_run dim rest s\' | None => Some s','C83: out-of-range writes ignored')
M('zb7','geo_reinit',X,'MapQ (gp_degree g) in','MapQ 1 in','C83: degree of the mapping ignored')
M('zb8','geo_start',X,'gs_size := 0; gs_map','gs_size := 1000000; gs_map','C83: vector large before the first call')
# C82
X='ModelRun'
M('zc1','run_doubles',X,'p_edge p (s2o numbers k)','p_edge p k','C82: edge set in the old numbering')
M('zc2','run_hanging',X,'(o2s numbers (fst e), snd e)','(fst e, snd e)','C82: hanging parents not renumbered')
M('zc3','run_data',X,'p_normal p (s2o numbers i) d; d_dim','p_normal p i d; d_dim','C82: normals in the old numbering')
M('zc4','run_rhs',X,'v_rhs (run_vectors i) i','v_rhs (run_vectors 0) i','C82: only the first node\'s process fills the right-hand side')
M('zc5','run_node',X,'p_node p (s2o numbers i)','p_node p i','C82: support points in the old numbering')
M('zc6','s_sgrad',X,'p_sgrad p (fun j => rhs (o2s numbers j)) (s2o numbers i)','p_sgrad p rhs (s2o numbers i)','C82: data not permuted for the surface gradients')
M('zc7','run_cells',X,'c_sub := sub c |}) (seq 0 (p_cells p))','c_sub := sub c |}) (seq 1 (p_cells p - 1))','C82: first cell skipped')
M('zc8','owner_of',X,'| None => 0 end','| None => 1 end','C82: owner of a dof in no cell (unreachable: expected harmless)')
M('zc9','owned_sets',X,'(seq 0 np)','(seq 0 (pred np))','C82: last process left out')
M('zc10','s_have_dirichlet',X,'have_dirichlet (p_dirichlet p) run_cells np','have_dirichlet (p_dirichlet p) run_cells 1','C82: flag looks at process 0 only')
# C78
X='ModelCurv'
M('zd1','cross',X,'vz a * vx b - vx a * vz b','vx a * vz b - vz a * vx b','C78: sign of the second component')
M('zd2','center',X,'vscal (/ 4) (vadd (vadd (q0 c)','vscal (/ 3) (vadd (vadd (q0 c)','C78: centre weight')
M('zd3','target_size',X,'Rmax (Rmax (Rabs k1) (Rabs k2)) tol','Rmax (Rmin (Rabs k1) (Rabs k2)) tol','C78: smaller curvature used')
M('zd4','target_size',X,'Rmax (Rmax (Rabs k1) (Rabs k2)) tol','Rmax (Rmax k1 k2) tol','C78: signed curvature')
M('zd5','curvature_flag',X,'(10 * tol)','tol','C78: lower bound 10 tol')
M('zd6','cell_normal',X,'normalise (cross t1 t3)','normalise (cross t1 t2)','C78: wrong vertex order')
M('zd7','arm',X,'vscal (-1) (center c)','vscal 1 (center c)','C78: arm sign')
M('zd8','exceeds',X,'if Rlt_dec s d then true','if Rlt_dec d s then true','C78: comparison reversed')
M('zd9','target_size',X,'else match pdiv (2 * PI) cpc with Some a => pdiv a tol | None => None end','else None','C78: cells without a surface never refined (what the comment says)')
M('zd10','normalise',X,'Some (vscal (/ vnorm a) a)','Some a','C78: not normalised')
# C79 / C80
X='ModelFloat'
M('ze1','fsquare',X,' [+] (v 2 [*] v 2)','','C80: third component dropped in the norm')
M('ze2','fkernel_D',X,'[*] r2) [*] r)','[*] r2))','C80: power of r')
M('ze3','fkernel_d',X,'(r [*] 4%R) [*] pi','(r [*] 2%R) [*] pi','C80: factor 4 pi')
M('ze4','fdifference',X,'fsub (x k) (y k)','fsub (y k) (x k)','C80: difference reversed')
M('ze5','fdot',X,' [+] (a 2 [*] b 2)','','C80: normal component dropped')
M('ze6','frule_at',X,'(sp_normal P c idx q) (node i)','(sp_normal P c 0 q) (node i)','C80: normal of another rule')
M('ze7','fstored_vmult',X,'@row_product f_arith I (fregular_kern m node P) (frule_at m node S) owned cols v i','@row_product f_arith I (fregular_kern dirichlet_matrix node P) (frule_at m node S) owned cols v i','C80: regular part of the other matrix')
M('ze8','row_product','ModelAssemble','(entry (assemble_adds I K S owned) i d) (phi d))) cols 0%R','(entry (assemble_adds I K S owned) i d) (phi d))) cols 1%R','C79: product starts at 1')
# octree / FMM workload (C77, C76)
X='ModelOctree'
M('zf1','near_next',X,'| [] => [j]\n','| [] => []\n','C77: childless neighbours dropped')
M('zf2','touches',X,'(overlap r (py m1) (py M1) (py m2) (py M2) && overlap r (px m1) (px M1) (px m2) (px M2))).','(overlap r (py m1) (py M1) (py m2) (py M2))).','C77: touching test ignores x for the z faces')
M('zf3','big_quads','ModelFmm','(flat_map (bigger I st level b) (seq 0 (near_levels I st b)))','(flat_map (bigger I st level b) (seq 1 (near_levels I st b - 1)))','C37: first sublevel dropped')
M('zf4','smaller','ModelFmm','Nat.ltb (endL st level) c','Nat.leb (endL st level) c','C37: boundary of the level')
M('zf5','same_size','ModelFmm','Nat.leb (startL st level) c &&','Nat.ltb (startL st level) c &&','C37: first block of the level dropped')
# again, patterns fixed
M('yo10b','shift0','ModelColl','','','again') if False else None
M('yf3b','doubles','ModelConform','filter (fun j => leb_tol (t_pos m i) (t_pos m j)) (seq 0 (t_nv m))','filter (fun j => leb_tol (t_pos m i) (t_pos m j)) (seq 1 (t_nv m - 1))','C45: vertex 0 not a double')
M('yn3b','kernelsH2_H','ModelKernel','Definition kernelsH2_H (v : vec) : mat := let r := norm 2 v in let r2 := r * r in fun i j =>\n  (match i, j with\n   | 0%nat, 0%nat => - v 0%nat * v 0%nat + v 1%nat * v 1%nat','Definition kernelsH2_H (v : vec) : mat := let r := norm 2 v in let r2 := r * r in fun i j =>\n  (match i, j with\n   | 0%nat, 0%nat => v 0%nat * v 0%nat + v 1%nat * v 1%nat','C13: sign in the Hessian')
M('yx8b','l_convert','ModelExp','bind (spher (psub (e_center other) (e_center e))) (fun s => let \'(rho, c, beta) := s in\n    bind (add_loop (e_p e) (m2l_coeff','bind (spher (psub (e_center e) (e_center other))) (fun s => let \'(rho, c, beta) := s in\n    bind (add_loop (e_p e) (m2l_coeff','M2L direction reversed')
M('yx9b','l_evaluate','ModelExp','Definition l_evaluate (e : expansion) (x : pt) : option R :=\n  if e_zero e then Some 0\n  else bind (spher (psub x (e_center e)))','Definition l_evaluate (e : expansion) (x : pt) : option R :=\n  if e_zero e then Some 0\n  else bind (spher (psub (e_center e) x))','L evaluated at the reflected point')
M('ys2b','V_F2','ModelSing','Jk0 d i / q_A d t ^ 3 * N0 d.','Jk0 d i / q_A d t ^ 2 * N0 d.','power')
# residual / store / value / conc / order
M('zg1','residual','ModelResid','Some (b - a)','Some (a - b)','C75: sign of the residual (norm unchanged)')
M('zg2','residual','ModelResid','co_distribute_rhs c owns (compute_rhs','co_distribute_rhs (fun _ => None) owns (compute_rhs','C75: rhs not distributed')
M('zg3','solver_accepts','ModelResid','l2_norm (s_n S) (pre r) <= tol','l2_norm (s_n S) r <= tol','C75: unpreconditioned residual')
S='ModelStore'
M('zh1','lec_m_offset',S,'u32 (u32 (u32 (p + 1) * u32 (p + 1)) * m)','u32 (u32 (u32 (p + 1) * u32 p) * m)','C02/C03: M2L table offset')
M('zh2','lec_size',S,'u32 (p + 1)) * u32 (p + 2)) / 2','u32 (p + 1)) * u32 (p + 1)) / 2','table size')
M('zh3','memcpy_cells',S,'if w <=? nbytes then x else Uninit','if w <? nbytes then x else Uninit','C03: last cell not copied')
V='ModelValue'
M('zi1','memcpy_buf',V,'(Z.to_nat (tri_size p) <=? length b)%nat','(Z.to_nat (tri_size p) <? length b)%nat','C04: exact fit refused')
M('zi2','del',V,'| None => Some h\n','| None => None\n','C04: delete of a null pointer fails')
M('zj1','put','ModelConc','if leq l l\' then v else m l\'','if leq l l\' then m l\' else v','memory write')
M('zj2','seq1','ModelConc','exec (copier d) m1','exec (copier d) m','C68: worker writes lost')
O='ModelOrder'
M('zk1','eval_accesses',O,'(zrange 1 (n + 1))) (zrange 0 (p + 1)).','(zrange 1 n)) (zrange 0 (p + 1)).','C10: last m dropped')
M('zk2','l2l_build_accesses',O,'(zrange n 11)) (zrange 0 (n + 1)))','(zrange n 12)) (zrange 0 (n + 1)))','C10: table built beyond 10')
W='ModelWork'
M('zl1','pat_worker',W,'(b_nodes (getb (st_blocks st) b)) (ic_reset d)).\n','(b_nodes (getb (st_blocks st) b)) d).\n','C68: copy data not reset')
M('zl2','create_l',W,'touch_table (Wr (LCen b) (VC b) (Wr (LExp b) (VL (lz E b)) done1))','Wr (LCen b) (VC b) (Wr (LExp b) (VL (lz E b)) done1)','C69: table not touched (race gone)')
M('zl3','dc_big',W,'let rows := if owned i then map','let rows := if owned i || true then map','C68: rows of other processes')
M('zl4','vmult_run',W,'(seq 0 (o_nd I)) 0%R)\n','(seq 1 (o_nd I - 1)) 0%R)\n','C68: first column dropped')
