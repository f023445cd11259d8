muts=[]
def M(id,d,f,old,new,claim,edit=None):
    muts.append(dict(id=id,**{'def':d},edits=[(f,old,new)],edit=edit or f'{old!r} -> {new!r}',claim=claim))
O='ModelOctree'
M('t1','octant',O,'''      if Qle_bool (px p) (px m + d)%Q then 0 else 1
    else''','''      if Qle_bool (px p) (px m + d)%Q then 0 else 2
    else''','C33: a point lies in the box of its child')
M('t2','child_min',O,"  | 3 => mkpt (px m) (py m + d)%Q (pz m)","  | 3 => mkpt (px m + d)%Q (py m + d)%Q (pz m)",'C33: child corner')
M('t3','child_block',O,'(filter (fun q => Nat.eqb (octant (b_min b) delta (o_qpos I q)) c) (b_quads b))','(filter (fun q => Nat.eqb (octant (b_min b) delta (o_qpos I q)) 0) (b_quads b))','C30: quadrature points are not duplicated over children')
M('t4','nonempty',O,'Nat.ltb 0 (length (b_nodes b) + length (b_quads b))','Nat.ltb 0 (length (b_nodes b))','C30: children with only quadrature points are kept')
M('t5','add_child qtb',O,'st_qtb := push_all (b_quads kid) x (st_qtb st);','st_qtb := push_all (b_quads kid) jj (st_qtb st);','C35: quad_point_to_block names the child')
M('t6','add_child dtb',O,'st_dtb := push_all (b_nodes par) jj (st_dtb st);','st_dtb := push_all (b_nodes kid) x (st_dtb st);','C36 finding: node-to-block map is wrong; fixed here')
M('t7','add_kid',O,'(b_kids b ++ [x])','(x :: b_kids b)','C31: children listed in increasing order')
M('t8','split_block',O,'(seq 0 8)','(seq 0 7)','C30: all eight octants')
M('t9','block_weight',O,'(w + 1 / inject_Z (Z.of_nat (length (o_dbl I n))))%Q','(w + 1)%Q','C32: double nodes counted once')
M('t10','classify small',O,'Z.leb (qround w) (Z.of_nat (o_max I))','Z.ltb (qround w) (Z.of_nat (o_max I))','C32: blocks split exactly when above the limit')
M('t11','classify parents',O,'st_parents := if small then st_parents st else st_parents st ++ [jj]','st_parents := if small then st_parents st ++ [jj] else st_parents st','C32')
M('t12','classify rest',O,'let rest := o_N I - level in ','let rest := o_N I - level - 1 in ','C35: every level has an entry')
M('t13','classify childless',O,'st_childless := if small then st_childless st ++ [jj] else st_childless st','st_childless := st_childless st','C32: childless blocks partition the points')
M('t14','octree',O,'st_childless := st_childless st ++ st_parents st;','st_childless := st_childless st;','C32: blocks of the last level are leaves')
M('t15','open_level',O,'st_start := st_start st ++ [S (last (st_end st) 0)]','st_start := st_start st ++ [last (st_end st) 0]','C31: levels are contiguous disjoint ranges')
M('t16','level_step delta',O,"let delta' := (delta / 2)%Q in","let delta' := delta in",'C33: child side is half')
M('t17','root_block',O,'let c := (- (11 # 10) * m)%Q in','let c := (- (9 # 10) * m)%Q in','C33: root box contains the points')
M('t18','max_coord',O,'Qmax (Qmax (Qmax m (Qabs (px p))) (Qabs (py p))) (Qabs (pz p))','Qmax (Qmax (Qmax m (px p)) (py p)) (pz p)','C33: root box contains points with negative coordinates')
M('t19','o_storage',O,'o_N I * o_nc I * o_nqc I','o_nc I * o_nqc I','C34: exact storage condition')
M('t20','touches',O,'''  || (faces_meet (pz m1) (pz M1) (pz m2) (pz M2) &&
     (overlap (py m1) (py M1) (py m2) (py M2) && overlap (px m1) (px M1) (px m2) (px M2))).''','.','C39: blocks meeting in a z face are near')
M('t21','overlap',O,'Qle_bool (lo1 - toll)%Q hi2 && Qle_bool lo2 (hi1 + toll)%Q','Qle_bool (lo1 + toll)%Q hi2 && Qle_bool lo2 (hi1 - toll)%Q','C39: blocks meeting in an edge are near')
M('t22','near0',O,'nub (k :: filter','nub (filter','C37/C39: a block is its own neighbour')
M('t23','near_next',O,"| ks => filter (fun c => touches (getb bs k) (getb bs c)) ks\n","| ks => ks\n",'near sublevels only keep touching children (harmless for coverage?)')
M('t24','near_of',O,'| [] => near_subs bs k (o_N I - b_level b) n0 ','| [] => near_subs bs k (o_N I - b_level b - 1) n0 ','C37: sublevels down to the last level')
M('t25','around',O,'(dof_elems I d)) (o_dbl I n)) (b_nodes b)','(dof_elems I d)) [n]) (b_nodes b)','C38: cells around double nodes are direct')
M('t26','int_list',O,'else nub (near I st k s ++ around I st k s)','else nub (near I st k s)','C38: singular cells in the interaction list')
M('t27','nonint_list',O,'match s with 0 => int_list I st (b_parent b) 0 | S s\' => int_list I st k s\' end','match s with 0 => int_list I st (b_parent b) 0 | S s\' => int_list I st k 0 end','C37: each pair exactly once')
M('t28','nonint_list',O,'nub (filter (fun j => negb (existsb (Nat.eqb j) (int_list I st k s)))','nub (filter (fun j => negb (existsb (Nat.eqb j) (near I st k s)))','C37: exactly once','remove near instead of interaction list')
M('t29','last_int',O,'int_list I st k (near_levels I st k - 1)','int_list I st k 0','C37/C38')
M('t30','nonint_list',O,'if Nat.eqb (b_level b) 1 then []\n  else\n    let up','if Nat.eqb (b_level b) 1 then level_ids st 1\n  else\n    let up','C37: level 1')
F='ModelFmm'
M('f1','bigger',F,'filter (fun c => Nat.ltb c (startL st level))','filter (fun c => Nat.leb c (startL st level))','C37: boundary of lower_bound')
M('f2','smaller',F,'filter (fun c => Nat.ltb (endL st level) c)','filter (fun c => Nat.leb (endL st level) c)','C37: boundary of upper_bound')
M('f3','same_size',F,'Nat.leb (startL st level) c && Nat.leb c (endL st level)','Nat.leb (startL st level) c && Nat.ltb c (endL st level)','C37')
M('f4','is_singular',F,'existsb (fun d => mem d (o_dbl I i)) (o_cdofs I c)','existsb (fun d => Nat.eqb d i) (o_cdofs I c)','C38: double nodes make a cell singular')
M('f5','near_row',F,'if is_singular I i c then sing K i c else regular_row','if negb (is_singular I i c) then sing K i c else regular_row','C38')
M('f6','big_worker',F,"regular_row I K i c qs)) (cells_in I qs) else []) |})","near_row I K i c qs)) (cells_in I qs) else []) |})",'(equivalent: bigger blocks never hold singular cells?)')
M('f7','near_worker',F,'''      if owned i then
        {| dc_nodes := dc_nodes cd ++ [i]; dc_start''','''      if true then
        {| dc_nodes := dc_nodes cd ++ [i]; dc_start''','C40/C41: only owned rows are written')
M('f8','slice',F,'if Nat.ltb ii (length (dc_nodes cd) - 1) then','if Nat.ltb ii (length (dc_nodes cd) - 2) then','C40: rows attributed to the right node')
M('f9','copier_adds',F,'(nth ii (dc_nodes cd) 0, snd jd, snd cr (fst jd))','(nth ii (dc_nodes cd) 0, snd jd, snd cr (snd jd))','C40: local index used in the row')
M('f10','direct_adds',F,'''           (seq 1 (o_N I)).

(** prec_neumann_matrix''','''           (seq 2 (o_N I)).

(** prec_neumann_matrix''','C40/C41: levels 1..N')
M('f11','entry',F,'then (a + snd x)%R else a) adds 0%R','then snd x else a) adds 0%R','C40: matrix.add accumulates')
M('f12','dofs_of_blocks / near_pattern',F,'map (fun d => (i, d)) (dofs_of_blocks I st (last_int I st b))','map (fun d => (i, d)) (dofs_of_blocks I st (near I st b 0))','C41: pattern covers the writes')
M('f13','sparsity',F,'flat_map (near_pattern I st owned) (st_childless st) ++\n','','C41: pattern covers near writes')
M('f14','elem_exp',F,'(shp K q j * jxw K q / 4 / PI)%R','(shp K q j * jxw K q / 4)%R','C40: strength of the source')
M('f15','leaf_exp',F,'(phi (snd jd))','(phi (fst jd))','C40: coefficient of the global dof')
M('f16','ascend1',F,'upd M p (madd E (M p) (madd E (mz E p) (M k)))','upd M p (madd E (mz E p) (M k))','C40: siblings accumulate')
M('f17','ascend',F,'(rev (seq 1 (o_N I)))','(seq 1 (o_N I))','C40: bottom-up')
M('f18','descend_local',F,'(laddl E (lz E b) (L (b_parent (getb (st_blocks st) b))))','(lz E b)','C40: inherits parent local expansion')
M('f19','descend_eval',F,'(smaller I st level b s) a)','(same_size I st level b s) a)','C40')
M('f20','descend1',F,'(upd L b (laddl E (L b) l),','(upd L b l,','equivalent? L b is fresh at that point')
M('f21','evaluate',F,'if owned i then upd o i (o i + evL E (L b) i)%R else o','upd o i (o i + evL E (L b) i)%R','C40: only owned')
M('f22','fmm_product',F,"entry adds i d * phi d","entry adds d i * phi d",'C40: near matrix transposed')
M('f23','level_of_id',F,'(seq 0 (S (o_N I)))','(seq 0 (o_N I))','C40: last level')
M('f24','cell_quads',F,'filter (fun q => Nat.eqb (cell_of I q) c) qs','qs','C40: only points of the cell')
M('r1','pushes (dof_to_elems cleared)','ModelRegen','map ren (pushes J d) ++ dof_to_elems r d','dof_to_elems r d','C52 finding: appended; here cleared')
B='ModelBlock'
M('k1','AddNode',B,'set_nodes b (k_nodes b ++ [n])','set_nodes b (n :: k_nodes b)','C51: order of nodes')
M('k2','AddChild',B,'if Nat.ltb (k_num b) 8 then','if Nat.leb (k_num b) 8 then','C51: at most 8 children')
M('k3','CopyContent',B,'(k_nodes b ++ k_nodes o) (k_quads o))','(k_nodes o) (k_quads o))','C51 finding: CopyContent appends nodes')
M('k4','AddNearNeigh',B,'lift (set_near b) (at_insert s x (k_near b))','lift (set_int b) (at_insert s x (k_near b))','C51: fields independent')
M('k5','resize',B,'firstn n v ++ repeat [] (n - length v)','repeat [] n','C51: resize keeps entries')
M('k6','set_insert',B,'else if Nat.eqb x y then l else','else','C51: set has no duplicates')
M('k7','copy_kids',B,'if Nat.eqb i m then from m else','if Nat.eqb i m then from 0 else','C51: children copied')
M('k8','at_insert',B,'option_map (cons l) (at_insert s\' x r)','option_map (cons l) (at_insert s\' s r)','C51: inserted element')
C='ModelCache'
M('c1','micros',C,'if Z.even f then f else f + 1','f','C43: std::to_string rounding halves to even')
M('c2','point_to_string',C,'to_string x ++ to_string y ++ to_string z','to_string x ++ to_string y','C43: all coordinates in the key')
M('c3','pull_back',C,'((hash (point_to_string p), v) :: m_cache m','((hash (point_to_string p), v) :: []','C43: cache kept')
M('c4','pull_back',C,'m_hits := S (m_hits m) |}, v)','m_hits := m_hits m |}, v)','C43: hit counter')
M('c5','six',C,'Dig (n / 10 mod 10); Dig (n mod 10)]','Dig (n / 10 mod 10); Dig 0]','C43: six decimals distinguish')
M('c6','to_string',C,'(if Qle_bool 0 x then [] else [Minus]) ++','','C43: sign distinguishes')
M('c7','to_string',C,'++ [Dot] ++','++','C43: (six fixed digits follow: still injective? first/second number boundary)')
D='ModelDriver'
M('d1','loop',D,'if (i <=? cycles)%Z then\n','if (i <? cycles)%Z then\n','C44: number of solves')
M('d2','loop',D,'negb global && (i <? cycles)%Z','negb global','C44: no refinement after the last solve')
M('d3','loop',D,'solve_problem (reinit s)','solve_problem s','C44: structures rebuilt for the mesh')
M('d4','run',D,'(if global then u32 n_cycles else u32 pre)','(if global then u32 pre else u32 n_cycles)','C44: refinement counts')
M('d5','loop',D,'loop global cycles f (u32 (i + 1)) s2','loop global cycles f (i + 1)%Z s2','C44: wrap-around of the counter (nontermination at 2^32-1)')
M('d6','set_manifolds',D,'set_manifold (11 + i) (Curve i) t','set_manifold (1 + ns + i) (Curve i) t','C46 finding: ids collide from 10 surfaces on; fixed here')
M('d7','scan',D,'if exists_file ii then S (scan exists_file f (S ii)) else 0','if exists_file ii then S (scan exists_file f (S ii)) else scan exists_file f (S ii)','C46: scan stops at the first missing file')
M('d8','choose_shape',D,'(if (0 <=? i)%Z then Use (Z.to_nat i) else OutOfBounds)','Use (Z.to_nat i)','C55: material id 0 is out of bounds')
M('d9','aspect_flag',D,'negb (Qle_bool mx (ratio * mn))','Qle_bool (ratio * mn) mx','C45: cut exactly above the ratio')
M('d10','aspect_flag',D,'Some (if lt01 then 1 else 0)','Some (if lt01 then 0 else 1)','C45: cut across the longer side')
M('d11','ref_loop',D,'''             | O => (m, cyc, refined)
             | _ => let fl''','''             | O => ref_loop l 0 (S cyc) m
             | _ => let fl''','C45: stops when nothing is refined')
M('d12','ref_loop',D,'ref_loop l (length fl) (S cyc) (conform (execute m fl))','ref_loop l (length fl) (S cyc) (execute m fl)','C45: edges conformal at the end')
N='ModelConform'
M('n1','flags_for',N,'Nat.eqb (length (doubles m i)) 1','Nat.leb (length (doubles m i)) 2','C45: conformal vertices are not flagged')
M('n2','flags_for axis',N,'Cut (if Nat.eqb d 0 || Nat.eqb d 1 then 1 else 0)','Cut (if Nat.eqb d 0 || Nat.eqb d 1 then 0 else 1)','C45: face is cut')
M('n3','far_end',N,'then Some (fpoint m c f 1)\n','then Some (fpoint m c f 0)\n','C45: far end of the edge')
M('n4','end_nodes',N,'(skipn 2 (elems m i))','(skipn 3 (elems m i))','C45: out of bounds write at a third cell')
M('n5','on_boundary',N,'existsb (fun c => at_boundary c && existsb (fun f => c_bnd c f && existsb','existsb (fun c => at_boundary c && existsb (fun f => existsb','C45: boundary vertices')
M('n6','make_edges_conformal',N,'| Some [] => Done m','| Some [_] => Done m | Some [] => Done m','C45: loop ends only when no flag is left')
K='ModelKernel'
M('e1','single_layer3',K,'1 / (norm 3 v * 4 * PI)','1 / (norm 3 v * 2 * PI)','C13')
M('e2','double_layer3',K,'v i / (- 4 * PI * square 3 v * norm 3 v).','v i / (4 * PI * square 3 v * norm 3 v).','C13: sign of the gradient')
M('e3','kernels2_D',K,'Definition kernels2_D (v : vec) : vec := let r := norm 2 v in let r2 := r * r in fun i => v i / (- 2 * PI * r2)','Definition kernels2_D (v : vec) : vec := let r := norm 2 v in let r2 := r * r in fun i => v i / (- 2 * PI * r)','C13: all variants agree')
M('e4','hypersingular3 (fixed)',K,'(before_break i (seq 0 3))','(filter (fun k => negb (Nat.eqb k i)) (seq 0 3))','C14 finding: hypersingular is wrong; fixed here')
M('e5','kernelsH3_H',K,'(- 3 * v i * v j / r2 / r2 / r)','(3 * v i * v j / r2 / r2 / r)','C14: sign')
M('e6','kernelsH3_D',K,'v i / (4 * PI * r2 * r)','v i / (- 4 * PI * r2 * r)','C13/C14 sign convention of kernels(R,H,D,d)')
M('e7','hypersingular2',K,'''   | 0%nat, 0%nat => - v 0%nat * v 0%nat + v 1%nat * v 1%nat
   | 1%nat, 1%nat => v 0%nat * v 0%nat - v 1%nat * v 1%nat
   | _, _ => - 2 * v 0%nat * v 1%nat
   end) / (- 2 * PI * square 2 v * square 2 v)''','''   | 0%nat, 0%nat => v 0%nat * v 0%nat - v 1%nat * v 1%nat
   | 1%nat, 1%nat => v 0%nat * v 0%nat - v 1%nat * v 1%nat
   | _, _ => - 2 * v 0%nat * v 1%nat
   end) / (- 2 * PI * square 2 v * square 2 v)''','C14: trace')
