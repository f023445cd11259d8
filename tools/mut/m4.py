muts=[]
def M(id,d,f,old,new,claim,edit=None):
    muts.append(dict(id=id,**{'def':d},edits=[(f,old,new)],edit=edit or f'{old!r} -> {new!r}',claim=claim))
def MM(id,d,edits,claim):
    muts.append(dict(id=id,**{'def':d},edits=edits,edit='; '.join(f'{f}: {o!r} -> {n!r}' for f,o,n in edits),claim=claim))
# redo
M('f21b','evaluate','ModelFmm','if owned i then upd o i (o i + evL E (L b) i)%R else o','if owned i || true then upd o i (o i + evL E (L b) i)%R else o','C40: only owned rows are written')
M('d12b','ref_loop','ModelDriver','ref_loop l (length fl) (S cyc) (conform (execute m fl))','ref_loop l (length fl) (S cyc) (snd (conform (execute m fl), execute m fl))','C45: edges conformal at the end')
M('c3b','pull_back','ModelCache','(hash (point_to_string p), v) :: m_cache m;','(hash (point_to_string p), v) :: [];','C43: cache kept (recomputation instead of a hit)')
# ModelSolve
S='ModelSolve'
M('v1','merge',S,'existsb (fun i => constrained c i && constrained hn i) (seq 0 n)','existsb (fun i => constrained c i && constrained hn i) (seq 0 (n - 1))','C65: conflict detection covers the last dof')
M('v2','merge',S,'match c i with Some l => Some l | None => hn i end','match c i with Some l => Some l | None => None end','C65: hanging node constraints merged')
M('v3','operator',S,'b_alpha := compute_alpha (s_N S) fresh_ones','b_alpha := compute_alpha (s_D S) fresh_ones','C65: alpha from the Neumann matrix')
M('v4','operator',S,'b_dir := fun i => if s_dir S i then 1 else 0','b_dir := fun i => if s_dir S i then 0 else 1','C65: indicator swapped')
M('v5','operator',S,'b_neu := fun i => if s_dir S i then 0 else 1','b_neu := fun i => 1','C65: neumann indicator')
M('v6','node_constraints',S,'k_sgrad := s_sgrad S rhs','k_sgrad := s_sgrad S (fun _ => 0)','C65: edge fluxes from the surface gradient of the data')
M('v7','node_constraints',S,'k_rhs := rhs','k_rhs := (fun _ => 0)','C65: potential imposed at coincident Neumann nodes')
M('v8','solves',S,'co_distribute_rhs c owns (compute_rhs (operator S) (fun _ => 0) rhs) i','compute_rhs (operator S) (fun _ => 0) rhs i','C65: distribute_rhs called')
M('v9','solves',S,'(compute_rhs (operator S) (fun _ => 0) rhs) i','(compute_rhs (operator S) rhs rhs) i','C65: system_rhs cleared first')
M('v10','solved_phi',S,'scatter_phi (operator S) phi sol','scatter_dphi (operator S) phi sol','C65: write back of the potential')
M('v11','solved_dphi',S,'scatter_dphi (operator S) dphi sol','scatter_phi (operator S) dphi sol','C65: write back of the flux')
M('v12','all_constraints',S,'Some c => Some (s_close S c)','Some c => Some c','C65: close (contract makes it equivalent; expected to survive only if harmless)')
M('v13','solves',S,'(own, constr_cpu_set (s_n S) c own)','(own, own)','C65: ghost set of constraints')
# ModelFmmExp
F='ModelFmmExp'
M('e1','block_center',F,'(Q2R (px (b_min b)) + Q2R (b_delta b) / 2)','(Q2R (px (b_min b)) + Q2R (b_delta b))','C59: centre of the box')
M('e2','src_of',F,'Single => Charge w (rpt (o_qpos I q))','Single => Charge (- w) (rpt (o_qpos I q))','C59: sign of the charges')
M('e3','src_of',F,'Double n => Dipole w (rpt (o_qpos I q)) (n q)','Double n => Dipole w (rpt (o_qpos I q)) (n 0%nat)','C59: normal of the point')
M('e4','code_eops',F,'madd := lift2 ModelExp.m_translate;','madd := fun a b => a;','C59: child multipoles added')
M('e5','code_eops',F,'laddm := lift2 ModelExp.l_convert;','laddm := fun a b => a;','C59: M2L')
M('e6','code_eops',F,'laddl := lift2 ModelExp.l_translate;','laddl := fun a b => a;','C59: L2L')
M('e7','code_eops',F,'ModelExp.m_add_scaled e e\' a','ModelExp.m_add_scaled e e\' 1','C59: scaling by the density')
M('e8','code_eops',F,'ModelExp.l_evaluate e (rpt (o_pos I i))','ModelExp.m_evaluate e (rpt (o_pos I i))','C59: local expansion evaluated')
M('e9','sep',F,'0 => (Q2R (px (o_qpos I q)) - Q2R (px (o_pos I i)))%R','0 => (Q2R (px (o_pos I i)) - Q2R (px (o_qpos I q)))%R','C59: direction of R')
M('e10','code_kernel',F,'+ ModelKernel.kernels3_D (sep I i q) 2%nat * ModelExp.cz (n q))%R','+ ModelKernel.kernels3_D (sep I i q) 2%nat * ModelExp.cy (n q))%R','C59: kernel of the double layer')
M('e11','code_kernel',F,'Single => ModelKernel.kernels3_d (sep I i q)','Single => (- ModelKernel.kernels3_d (sep I i q))%R','C59: sign of the single layer')
M('e12','code_kern',F,'shp := shape; jxw := JxW','shp := shape; jxw := fun _ => 1%R','C59/C60: JxW')
# ModelAssemble
A='ModelAssemble'
M('a1','first_in',A,'if mem d dbl then Some j else','if mem d dbl then Some 0 else','C60: singular index')
M('a2','singular_row',A,'sr_shape S idx q j','sr_shape S 0 q j','C60: shape function of the singular rule')
M('a3','local_row',A,'(a + kd K i q * shp K q j * jxw K q)%R) (quads_of_cell I c) 0%R','(a + kd K i q * shp K q j)%R) (quads_of_cell I c) 0%R','C60: JxW dropped')
M('a4','local_row',A,'(quads_of_cell I c) 0%R','(tl (quads_of_cell I c)) 0%R','C60: first quadrature point dropped')
M('a5','assemble_adds',A,'(i, nth j (o_cdofs I c) 0, local_row I K S i c j)','(nth j (o_cdofs I c) 0, i, local_row I K S i c j)','C60: transposed')
M('a6','assemble_adds',A,'fun i => if owned i then','fun i => if negb (owned i) then','C60: owned rows')
M('a7','direct_vmult',A,'* phi d)%R) (seq 0 (o_nd I)) 0%R','* phi d)%R) (seq 0 (o_nd I - 1)) 0%R','C60: last column dropped')
M('a8','local_row',A,'| Some idx => singular_row S i c idx','| Some idx => fun j => fold_left (fun a q => (a + kd K i q * shp K q j * jxw K q)%R) (quads_of_cell I c) 0%R','C60: singular rule used on singular cells')
M('a9','direct_singular',A,'if Nat.eqb dim 3 then QSplitDuffy n idx else QTelles n idx','QTelles n idx','C60: finding on singular rules (statement becomes false)')
M('a10','fmm_regular',A,'Definition fmm_regular (t : quad_type) (n : nat) : rule := QGauss n.','Definition fmm_regular (t : quad_type) (n : nat) : rule := select t n.','C60: finding on ignored quadrature type')
M('a11','full_pattern',A,'(seq 0 (o_nd I))) (filter owned','(seq 0 (o_nd I - 1))) (filter owned','C60: pattern covers all columns')
# ModelProj
P='ModelProj'
M('j1','local_matrix',P,'if Nat.eqb (p_comp P i) (p_comp P j) then (a + p_shape P c i q * p_shape P c j q * p_jxw P c q)%R else a','(a + p_shape P c i q * p_shape P c j q * p_jxw P c q)%R','C61: components uncoupled')
M('j2','local_matrix',P,'p_shape P c i q * p_shape P c j q * p_jxw P c q','p_shape P c i q * p_shape P c i q * p_jxw P c q','C61: mass matrix')
M('j3','local_rhs',P,'G c q (p_comp P i)','G c q 0%nat','C61: component of the field')
M('j4','local_rhs',P,'* p_jxw P c q)%R) (seq 0 (p_points P)) 0%R.\nDefinition locals',')%R) (seq 0 (p_points P)) 0%R.\nDefinition locals','C61: JxW')
M('j5','matrix_adds',P,'flat_map (fun c => if Nat.eqb (p_sub P c) me then\n      flat_map (fun i => flat_map','flat_map (fun c => if Nat.eqb (p_sub P c) me || true then\n      flat_map (fun i => flat_map','C61: cells of other processes counted again')
M('j6','rhs_adds',P,'(snd ew * local_rhs P G c i)%R','(local_rhs P G c i)%R','C61: constraint weights in the right-hand side')
M('j7','matrix_adds',P,'(snd ew * snd fv * local_matrix P c i j)%R','(snd ew * local_matrix P c i j)%R','C61: constraint weights in the matrix')
M('j8','distribute',P,'snd ew * x (fst ew)','x (fst ew)','C61: distribute')
M('j9','gradient_field',P,'(normal c q k * dn c q + sg c q k)%R','(sg c q k)%R','C61: gradient = normal part + surface part')
M('j10','rhs_adds',P,'flat_map (fun c => if Nat.eqb (p_sub P c) me then\n      flat_map (fun i => map','flat_map (fun c => if Nat.eqb (p_sub P c) 0 then\n      flat_map (fun i => map','C61: right-hand side of every process')
# ModelHyp
H='ModelHyp'
M('h1','near',H,'if Rlt_dec (nrm (vsub a b)) (1 / 100000) then true else false','if Rlt_dec (nrm (vadd a b)) (1 / 100000) then true else false','C62: unique normals')
M('h2','unique',H,'if existsb (near n) u then u else u ++ [n]','if existsb (near n) u then u else n :: u','C62: order of the unique normals')
M('h3','average',H,'(smul (1 / INR (length u)) n)) u (V 0 0 0)','(smul (1 / INR (length u)) n)) (tl u) (V 0 0 0)','C62: average normal')
M('h4','next_step',H,'if Rlt_dec 0 quadrant then','if Rlt_dec quadrant 0 then','C62: counter-clockwise order')
M('h5','next_step',H,'if Rlt_dec sorter (fst st) then (sorter, p) else st','if Rlt_dec (fst st) sorter then (sorter, p) else st','C62: nearest normal next')
M('h6','order',H,':: order f avg (nth k qs None)',':: order f avg prev','C62: search continues from the last normal')
M('h7','erase',H,'firstn k l ++ skipn (S k) l','firstn k l ++ skipn k l','C62: erase')
M('h8','tangent',H,'cross (n k) (n (k - 1)%nat)','cross (n (k - 1)%nat) (n k)','C62: orientation of the tangents')
M('h9','geom_alpha',H,'(facos (dot (n (N - 1)%nat) (n 0%nat)))','(facos (dot (n (N - 1)%nat) (n 1%nat)))','C62: last edge')
M('h10','geom_alpha',H,'Some (x / (4 * PI))','Some (x / (2 * PI))','C62: normalisation')
M('h11','geom_alpha',H,'(seq 1 (N - 1)) (Some (2 * PI))','(seq 1 (N - 2)) (Some (2 * PI))','C62: one dihedral angle missed')
M('h12','C_entry',H,'Some (c - 1 / 4 / PI','Some (c + 1 / 4 / PI','C62: sign of the corner term')
M('h13','C_entry',H,'comp (cross (vsub t\' t) n) i * comp n j','comp (cross (vsub t\' t) n) j * comp n i','C62: transposed C')
M('h14','C_entry',H,'if Nat.eqb i j then 0 + a else 0 in','0 + a in','C62: delta_ij')
M('h15','b_adds',H,'map (fun d => (d, h_b M c il)) (h_double M g)','[(g, h_b M c il)]','C63: coincident nodes get the term')
M('h16','b_adds',H,'if own g then','if negb (own g) then','C63: each process its own dofs')
M('h17','b_vector',H,'b0 d i + suml','suml','C63: finding, b_i accumulates (statement becomes false)')
M('h18','gather',H,'if Nat.eqb d i then [h_normal M c il] else []','if Nat.eqb (nth il (h_dofs M c) 0%nat) i then [h_normal M c il] else []','C62: normals of coincident nodes')
M('h19','C_entry_2d',H,'INR (1 / 2)%nat / PI','1 / 2 / PI','C62: finding, integer division (statement becomes false)')
M('h20','project',H,'vsub n (smul (dot avg n) avg)','vadd n (smul (dot avg n) avg)','C62: projection')
M('h21','facos',H,'if Rle_dec (-1) x then if Rle_dec x 1','if Rle_dec (-1) x then if Rle_dec x 2','C62: acos domain')
# ModelHypGrad
G='ModelHypGrad'
M('k1','sing',G,'existsb (Nat.eqb (dof G c j)) (g_double G i)','Nat.eqb (dof G c j) i','C64: coincident nodes make a cell singular')
M('k2','Hn',G,'kernelsH3_H r d k * n k','kernelsH3_H r k d * n k','C64 (H symmetric: harmless, expected to survive)')
M('k3','regular_part',G,'g_q G c q k - g_x G i k','g_x G i k - g_q G c q k','C64: direction of R')
M('k4','regular_part',G,'(- phi (dof G c j) * Hn','(phi (dof G c j) * Hn','C64: sign of the hypersingular part')
M('k5','singular_part',G,'str + hyp.','str - hyp.','C64: sign in singular cells')
M('k6','singular_part',G,'dphi (dof G c j) * g_W G c s j d','dphi (dof G c j) * g_W G c j s d','C64: index order')
M('k7','det',G,'- C 0%nat 1%nat * (C 1%nat 0%nat','+ C 0%nat 1%nat * (C 1%nat 0%nat','C64: determinant')
M('k8','inv3',G,'(C (nx j) (nx i) * C (nx (nx j)) (nx (nx i))','(C (nx i) (nx j) * C (nx (nx i)) (nx (nx j))','C64: inverse (transposed)')
M('k9','hyp_gradient',G,'+ - b i k * phi i','+ b i k * phi i','C64: sign of the b term')
M('k10','hyp_gradient',G,'Ci d k * (integral','Ci k d * (integral','C64: C^-1 transposed')
M('k11','integral',G,'(seq 0 (g_cells G)) 0.','(seq 1 (g_cells G - 1)) 0.','C64: first cell')
M('k12','regular_part',G,'* kernelsH3_D r d * g_shape G c j q * g_jxw G c q)','* kernelsH3_D r d * g_shape G c j q)','C64: JxW')
