muts=[]
def M(id,d,f,old,new,claim,edit=None):
    muts.append(dict(id=id,**{'def':d},edits=[(f,old,new)],edit=edit or f'{old!r} -> {new!r}',claim=claim))
# leaf models first
X='ModelConform'
M('ba1','tol2',X,'1 # 100000000000000.','1 # 1000000000000.','edge conformity: points 1e-6 apart are taken as coincident')
M('ba2','d2',X,'(sq (px a - px b) + sq (py a - py b) + sq (pz a - pz b))','(sq (px a - px b) + sq (py a - py b))','edge conformity: distance ignores z')
M('ba3','ltb_tol',X,'negb (Qle_bool tol2 (d2 a b))','Qle_bool (d2 a b) tol2','edge conformity: points exactly 1e-7 apart coincide')
M('ba4','leb_tol',X,'Qle_bool (d2 a b) tol2.','negb (Qle_bool tol2 (d2 a b)).','edge conformity: points exactly 1e-7 apart do not coincide')
M('ba5','at_boundary',X,'existsb (c_bnd c) (seq 0 4)','existsb (c_bnd c) (seq 0 3)','edge conformity: the fourth face is not looked at')
M('ba6','elems',X,"(seq 0 4))) (t_cells m)","(seq 1 3))) (t_cells m)",'edge conformity: first vertex of a cell is not registered')
M('ba7','pass',X,'pass_from iso m (seq 0 (t_nv m))','pass_from iso m (seq 1 (t_nv m - 1))','edge conformity: vertex 0 is never examined')
M('ba8','pass_from',X,'Some (a ++ b)','Some b','edge conformity: only the last vertex sets flags')
M('ba9','fpoint',X,'t_pos m (c_vert c (face_vert f k))','t_pos m (c_vert c (face_vert f 0))','edge conformity: edge with twice the same end')
X='ModelBlock'
M('bb1','new_block',X,'mkblk level parent 0 (fun _ => None) [[]] [[]] [[]] p d','mkblk level parent 0 (fun _ => None) [] [[]] [[]] p d','block: a new block has no near neighbour level')
M('bb2','copy_block',X,'(k_near o) (k_int o) (k_non o) (k_pmin o) (k_delta o) ([] ++ k_nodes o)','(k_near o) (k_non o) (k_int o) (k_pmin o) (k_delta o) ([] ++ k_nodes o)','block: a copy swaps the two lists')
M('bb3','GetIntList',X,'nth_error (k_int b) s','nth_error (k_non b) s','block: wrong list returned')
M('bb4','GetChildId',X,'if Nat.ltb i 8 then','if Nat.ltb i 7 then','block: the eighth child is out of range')
M('bb5','NumIntList',X,'option_map (@length nat) (GetIntList b s)','option_map (@length nat) (GetNonIntList b s)','block: wrong count')
M('bb6','GetParentId',X,'GetParentId (b : blk) := k_parent b','GetParentId (b : blk) := k_level b','block: level returned as parent')
M('bb7','set_int',X,'(k_near b) v (k_non b)','v (k_int b) (k_non b)','block: interaction list stored as near neighbours')
M('bb8','GetNearNeighSize',X,'length (k_near b)','length (k_int b)','block: wrong size')
X='ModelHyp'
M('bc1','normalize',X,'Some (V (vx a / nrm a) (vy a / nrm a) (vz a / nrm a))','Some a','alpha: vectors are not normalised')
M('bc2','normalize',X,'if Req_EM_T (nrm a) 0 then None else','','alpha: division by zero unnoticed')
M('bc3','dot',X,'vx a * vx b + vy a * vy b + vz a * vz b','vx a * vx b + vy a * vy b - vz a * vz b','alpha: wrong dot product')
M('bc4','projected',X,'normalize (project a n)','normalize a','alpha: average not projected on the tangent plane')
M('bc5','hyp_C',X,'C_entry l di dj) (ordered','C_entry l dj di) (ordered','C matrix transposed')
M('bc6','hyp_alpha',X,'option_map geom_alpha (ordered (unique (gather M i)))','option_map geom_alpha (ordered (gather M i))','alpha: cells counted twice')
X='ModelKernel'
M('bd1','single_layer2',X,'Definition single_layer2 (v : vec) : R := - ln (norm 2 v) / (2 * PI)','Definition single_layer2 (v : vec) : R := - ln (norm 2 v) / (4 * PI)','2D kernel constant of the object')
M('bd2','double_layer2',X,'v i / (- 2 * PI * square 2 v)','v i / (2 * PI * square 2 v)','2D double layer sign')
M('bd3','kernels2_d',X,'Definition kernels2_d (v : vec) : R := let r := norm 2 v in - ln r','Definition kernels2_d (v : vec) : R := let r := norm 2 v in ln r','2D single layer sign')
M('bd4','kernelsH2_D',X,'Definition kernelsH2_D (v : vec) : vec := let r := norm 2 v in let r2 := r * r in','Definition kernelsH2_D (v : vec) : vec := let r := norm 2 v in let r2 := r in','2D double layer exponent in kernels with hypersingular part')
M('bd5','kernelsH3_d',X,'kernelsH3_d (v : vec) : R := let r := norm 3 v in 1 / (r * 4 * PI)','kernelsH3_d (v : vec) : R := let r := norm 3 v in 1 / (r * 2 * PI)','3D constant')
M('bd6','square',X,'(fun s k => s + v k * v k) (seq 0 dim) 0','(fun s k => s + v k * v k) (seq 0 2) 0','norm ignores the third coordinate')
M('bd7','before_break',X,'if Nat.eqb k i then [] else','if Nat.eqb k i then [k] else','loop over columns stops one later')
X='ModelStore'
M('be1','lec_nn_offset',X,'u32 (nn * nn)','u32 (nn * nn + nn)','local expansion coefficient offset')
M('be2','lec_m_offset',X,'u32 (u32 (u32 (p + 1) * u32 (p + 1)) * m)','u32 (u32 (u32 (p + 1) * u32 p) * m)','local expansion coefficient stride')
M('be3','lec_size',X,'u32 (u32 (u32 (u32 (p + 1) * u32 (p + 1)) * u32 (p + 1)) * u32 (p + 2)) / 2','u32 (u32 (u32 (u32 (p + 1) * u32 (p + 1)) * u32 (p + 1)) * u32 (p + 1)) / 2','local expansion coefficient table too small')
M('be4','memcpy_cells',X,'if w <=? nbytes then x else Uninit','if w <? nbytes then x else Uninit','memcpy misses the last element')
M('be5','new_buffer',X,'repeat zero (Z.to_nat (tri_size p))','repeat zero (Z.to_nat (tri_size p) - 1)','buffer one too short')
M('be6','lec_set',X,'arr_set buf (lec_index p n m nn mm) v','arr_set buf (lec_index p n m mm nn) v','store at the wrong place')
X='ModelValue'
M('bf1','del',X,'Some (list_upd h l None)','Some h','expansions: delete leaks')
M('bf2','memcpy_buf',X,'(firstn (Z.to_nat (tri_size p)) b)','(firstn (Z.to_nat (tri_size p) - 1) b)','expansions: copy one too short')
M('bf3','deref',X,'match nth_error h l with Some (Some b) => Some b | _ => None end','match nth_error h (pred l) with Some (Some b) => Some b | _ => None end','expansions: wrong buffer')
X='ModelCache'
M('bg1','queries',X,"let '(m'', vs) := queries m' r in","let '(m'', vs) := queries m r in",'cache lost between queries')
M('bg2','decimal',X,'digits (Z.to_nat (Z.log2 n)) n','digits (Z.to_nat (Z.log2 n) - 1) n','decimal text of a coordinate loses digits')
X='ModelFloat'
M('bh1','fdot',X,'then s [+] (a 2 [*] b 2) else s.','then s else s.','3D rounding: dot product loses a term')
M('bh2','fsquare',X,'let s := (v 0 [*] v 0) [+] (v 1 [*] v 1) in','let s := (v 0 [*] v 0) [+] (v 0 [*] v 1) in','norm with a wrong term')
M('bh3','fnorm',X,'fsqrt (fsquare v)','fsquare v','square root dropped')
M('bh4','fdifference',X,'fsub (x k) (y k)','fsub (y k) (x k)','difference reversed')
X='ModelFloatSolve'
M('bi1','falpha',X,'(fun _ => 0 [+] -1) i','(fun _ => 0 [+] 1) i','alpha with the wrong sign in floating point')
M('bi2','fdir',X,'then 1 else 0.','then 0 else 1.','Dirichlet indicator inverted in floating point')
M('bi3','fscale',X,'fun i => a i [*] b i','fun i => a i [*] a i','scaling by itself')
X='ModelErr'
M('bj1','grad_node_error',X,'(grad_exact j * -1 + 1 * grad j)','(grad_exact j * 1 + 1 * grad j)','gradient errors added instead of subtracted')
M('bj2','dphi_cells',X,'eval dphi_node_error q - 0','eval dphi_node_error q - 1','dphi error compared with 1')
X='ModelSing'
M('bk1','coef_A',X,'Definition coef_A (d : eta_data) (t : R) : vec := fun i => d_jac d i 0%nat * cos t + d_jac d i 1%nat * sin t','Definition coef_A (d : eta_data) (t : R) : vec := fun i => d_jac d i 0%nat * sin t + d_jac d i 1%nat * cos t','singular kernel: angle swapped')
M('bk2','q_C',X,'vdot (coef_A d t) (coef_B d t)','vdot (coef_B d t) (coef_B d t)','singular kernel: wrong product')
M('bk3','Jk1',X,'vadd (vscale (cos t)','vsub (vscale (cos t)','singular kernel: sign of the second derivative')
M('bk4','r_rho',X,'Definition r_rho (d : eta_data) (t : R) : vec := fun i => d_jac d i 0%nat * cos t + d_jac d i 1%nat * sin t','Definition r_rho (d : eta_data) (t : R) : vec := fun i => d_jac d i 0%nat * cos t - d_jac d i 1%nat * sin t','singular kernel: sign')
M('bk5','vdot',X,'a 0%nat * b 0%nat + a 1%nat * b 1%nat + a 2%nat * b 2%nat','a 0%nat * b 0%nat + a 1%nat * b 1%nat','singular kernel: dot product ignores z')
M('bk6','face_coeff',X,'if Nat.ltb f 2 then px (csi_0 eta f)','if Nat.leb f 2 then px (csi_0 eta f)','third face uses the wrong coordinate')
# middle
X='ModelOrder'
M('bl1','p2m_accesses',X,'[Leg n (Z.abs m); Coef p n m]) (zrange 0 (n + 1)))\n           (zrange 0 (p + 1))','[Leg n (Z.abs m); Coef p n m]) (zrange 0 (n + 2)))\n           (zrange 0 (p + 1))','order limit: reads past the row')
M('bl2','eval_accesses',X,'(zrange 1 (n + 1))) (zrange 0 (p + 1))','(zrange 1 (n + 1))) (zrange 0 (p + 2))','order limit: evaluation one order further')
M('bl3','m2l_build_accesses',X,'(zrange (-1 * nn) (nn + 1))) (zrange 0 11)) (zrange 0 (n + 1))) (zrange 0 11).','(zrange (-1 * nn) (nn + 1))) (zrange 0 12)) (zrange 0 (n + 1))) (zrange 0 11).','table construction one row further')
M('bl4','l2l_build_accesses',X,'Anm (nn - n) (Z.abs (mm - m))','Anm (nn + n) (Z.abs (mm - m))','table construction with a wrong index')
X='ModelLegApi'
M('bm1','AssLegFunSph',X,'(fun n => GetAssLegFunSph n m x) (seq m (p + 1 - m))','(fun n => GetAssLegFunSph n m x) (seq m (p - m))','Legendre array one too short')
M('bm2','GetAssLegFunSphDeriv',X,'bind (table leg_der_pointers_assignments n m)','bind (table leg_pointers_assignments n m)','derivative table is the value table')
M('bm3','AssLegFunSphDeriv',X,'Some (y, d)','Some (d, y)','value and derivative swapped')
X='ModelLegTable'
M('bn1','P_3_1',X,'((((Neg $1) * $4) * ((#360 * $2) - #72)) / #288)','((((Neg $1) * $4) * ((#360 * $2) - #72)) / #244)','a Legendre constant')
M('bn2','P_4_4_Deriv',X,'((((Neg $1) * (#1 - $2)) * X) / #4)','((($1 * (#1 - $2)) * X) / #4)','a sign of a derivative')
M('za7b','at_points','ModelFiles','(fun i => f_shape f c i q * v (nth i (dofs_now U c) 0%nat))%R','(fun i => f_shape f c i q * v (nth i (if Nat.eqb np 0 then dofs_now U c else p_dofs p c) 0%nat))%R','C84: function values with the old dof numbers')
M('za9b','nodal','ModelFiles','ModelProj.distribute run_projection x (vo2s','(if Nat.eqb np 0 then ModelProj.distribute run_projection x else x) (vo2s','C84: hanging nodes not distributed')
M('zc5b','run_node','ModelRun','p_node p (s2o numbers i)','p_node p (if Nat.eqb np 0 then s2o numbers i else i)','C82: support points in the old numbering')
X='ModelTrueCon'
M('bo1','constraint_vmult',X,'d + src (fst e) * snd e) es 0','d + src (fst e) * snd e) es (src i)','C90: constrained entry not cleared before accumulation')
M('bo2','constraint_vmult',X,'    | None => src i\n    end.\n  (** one turn','    | None => 0\n    end.\n  (** one turn','C90: free entries not copied')
M('bo3','tv_step',X,'l (fst e) + src i * snd e','src i * snd e','C90: transpose overwrites instead of accumulating')
M('bo4','tv_step',X,'es (upd loc i 0)','es loc','C90: the constrained entry is not cleared')
M('bo5','tv_step',X,'| None => upd loc i (src i)','| None => upd loc i (loc i + src i)','C90: free entry accumulates')
M('bo6','constraint_tvmult',X,'    dst j + fold_left','    0 * dst j + fold_left','C90: destination overwritten')
M('bo7','constraint_tvmult',X,'(seq 0 n)','(seq 0 (n - 1))','C90: last dof skipped')
M('bo8','vmult',X,'constraint_tvmult dst (M (constraint_vmult src))','constraint_tvmult dst (M src)','C90: source not constrained')
M('bo9','distribute_rhs',X,'M (fun i => - inhomogeneity i)','M (fun i => inhomogeneity i)','C90: sign of the inhomogeneities')
M('bo10','distribute_rhs',X,'rhs i + rhs_tmp i','rhs i','C90: inhomogeneities forgotten')
M('bo11','finalise',X,'(fun e => snd e * u (fst e)) + g','(fun e => snd e * u (fst e))','C90: finalise without inhomogeneity')
