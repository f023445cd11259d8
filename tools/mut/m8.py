muts=[]
def M(id,d,f,old,new,claim,edit=None):
    muts.append(dict(id=id,**{'def':d},edits=[(f,old,new)],edit=edit or f'{old!r} -> {new!r}',claim=claim))
# C86
X='ModelParams'
M('aa1','blank',X,'(9 <=? code c) && (code c <=? 13)','(9 <=? code c) && (code c <=? 10)','C86: carriage return is not white space')
M('aa2','digit',X,'(48 <=? code c) && (code c <=? 57)','(48 <=? code c) && (code c <? 57)','C86: the digit 9 is not read')
M('aa3','digits',X,'digits (10 * v + d) true r','digits (10 * d + v) true r','C86: digits combined in the wrong order')
M('aa4','digits',X,'| None => (v, any, s) end','| None => (v, any, r) end','C86: the character after the number is swallowed')
M('aa5','scan_number',X,'if Ascii.eqb c minus then (true, r)','if Ascii.eqb c minus then (false, r)','C86: the minus sign is ignored')
M('aa6','scan_number',X,'if any then Some (neg, v, rest) else None','Some (neg, v, rest)','C86: an empty text reads as zero')
M('aa7','read_int',X,'(z <? 2 ^ 31) then','(z <=? 2 ^ 31) then','C86: 2^31 accepted as int')
M('aa8','read_unsigned',X,'(if neg then (- v) mod 2 ^ 32 else v) else','v else','C86: negative numbers read as their magnitude')
M('aa9','read_unsigned',X,'else 2 ^ 32 - 1','else v mod 2 ^ 32','C86: too large numbers wrap around (ids accepted by the pattern are below 2^31)')
M('aa10','integer_ok',X,'forallb blank rest && (lo <=? z)','(lo <=? z)','C86: text after the number is accepted')
M('aa11','integer_ok',X,'(lo <=? z) && (z <=? hi)','(lo <? z) && (z <=? hi)','C86: the lower bound itself is rejected')
M('aa12','cut',X,'then ([], Some r) else','then ([], None) else','C86: entries after the first comma are dropped')
M('aa13','split_loop',X,'rstrip (skip space name) ::','name ::','C86: entries are not trimmed (blanks around numbers are skipped by the reader)')
M('aa14','split_string_list',X,'let t := rstrip s in split_loop','let t := s in split_loop','C86: spaces at the end are not removed')
M('aa15','ids_ok',X,'integer_ok 0 (2 ^ 31 - 1)','integer_ok (- 2 ^ 31) (2 ^ 31 - 1)','C86: negative ids are accepted')
M('aa16','unsigned_parameter',X,'Some (z mod 2 ^ 32)','Some (Z.abs z)','C86: negative parameters become their magnitude')
M('aa17','boundary_ids',X,'map read_unsigned (split_string_list s)','map read_unsigned (rev (split_string_list s))','C86: ids in reverse order')
# C88
X='ModelHistory'
M('ab1','h_cycle',X,'answer m gs q o e)','answer m gs (mk fe order) o e)','C88: harmless for direct runs: the cycle uses fresh quadratures (the state keeps the old ones)')
M('ab2','h_cycle',X,'let e := if fast then (fun d => h_elems s d ++ entries m d) else h_elems s in','let e := if fast then entries m else h_elems s in','C88: the node-to-cell map is cleared (the corrected program)')
M('ab3','h_cycle',X,'ones_call (h_ones s) (ndofs m, layout m)','ones_call None (ndofs m, layout m)','C88: the vector of ones is rebuilt (the corrected program)')
M('ab4','h_cycle',X,'match geo_reinit dim g (geo m) (h_geo s) with','match geo_reinit dim g (geo m) geo_start with','C88: the geometry of every cycle is built anew (the corrected program)')
M('ab5','h_loop',X,'hd_state := s1;','hd_state := h_start;','C88: nothing survives a cycle (the corrected program)')
M('ab6','h_loop',X,'hd_log := hd_log s ++ [(hd_mesh s, a)]','hd_log := (hd_mesh s, a) :: hd_log s','C88: log in reverse order')
M('ab7','h_loop',X,'negb global && (i <? cycles)%Z','(i <? cycles)%Z','C88: refinement also in global mode (cycles is 0 there: harmless)')
M('ab8','h_loop',X,'if (i <=? cycles)%Z then','if (i <? cycles)%Z then','C88: one cycle too few')
M('ab9','h_run',X,'(if global then u32 n_cycles else u32 pre) read_domain','(u32 pre) read_domain','C88: global refinement ignored')
# C87
X='ModelTwoFe'
M('ac1','el_nv',X,'el_dim E * el_m E','el_dim E * el_n E','C87: vector handler assumed to have the size of the scalar one')
M('ac2','el_s2o',X,'(seq 0 el_nv) old','(seq 0 (el_n E)) old','C87: the inverse table is filled for all scalar dofs (the corrected program)')
M('ac3','el_s2o',X,'if Nat.ltb i (el_n E) then upd t (el_o2s i) i','if Nat.ltb i (el_n E) then upd t i (el_o2s i)','C87: inverse table filled with the table itself')
M('ac4','el_vread',X,'if Nat.ltb k el_nv then','if Nat.leb k el_nv then','C87: read one past the end is taken as defined')
M('ac5','el_components',X,'el_vread (el_nv / el_dim E * d + dummy)','el_vread (el_n E * d + dummy)','C87: component stride taken from the scalar handler')
M('ac6','el_vset',X,'if is_sub (el_domain i) me then','if is_sub (el_domain i) 0 then','C87: every process takes the dofs of process 0')
M('ac7','el_normal_dof',X,'el_vread (el_nv / el_dim E * d + el_s2o old i)','el_vread (el_n E * d + el_s2o old i)','C87: stride of the scalar handler for normals')
M('ac8','el_normal_dof',X,'el_vread (el_nv / el_dim E * d + el_s2o old i)','el_vread (el_nv / el_dim E * d + i)','C87: normals read without the table')
M('ac9','el_error_dof',X,'el_vread (d * el_n E + i)','el_vread (d * el_m E + i)','C87: errors read with the stride of the vector handler')
M('ac10','el_error_dof',X,'el_vread (d * el_n E + i)','el_vread (i * el_dim E + d)','C87: components interleaved')
# C89
X='ModelFloatSolve'
M('ad1','falpha',X,'(fun _ => 0 [+] -1)','(fun _ => 0 [+] 1)','C89: alpha with the wrong sign')
M('ad2','falpha',X,'fproduct neumann_matrix (fun','fproduct dirichlet_matrix (fun','C89: alpha from the wrong matrix')
M('ad3','fdir',X,'i then 1 else 0.\n  Definition fneu','i then 0 else 1.\n  Definition fneu','C89: Dirichlet marks inverted')
M('ad4','fvmult',X,'let dst := dst [*] -1 in\n    let dst := dst [+] fproduct neumann_matrix serv_phi i in','let dst := dst [+] fproduct neumann_matrix serv_phi i in\n    let dst := dst [*] -1 in','C89: sign changed after both products')
M('ad5','fvmult',X,'    dst [+] (serv_phi i [*] falpha i).','    dst [+] falpha i.','C89: alpha not scaled by phi')
M('ad6','frhs',X,'let dst := dst [*] -1 in\n    dst [+] fproduct dirichlet_matrix serv_dphi i','dst [+] fproduct dirichlet_matrix serv_dphi i','C89: right hand side without the change of sign')
M('ad7','frhs',X,'let serv_phi := fscale src fdir in let serv_dphi := fscale src fneu in\n    let dst := fproduct neumann_matrix serv_phi i in\n    let dst := dst [+] (','let serv_phi := fscale src fneu in let serv_dphi := fscale src fdir in\n    let dst := fproduct neumann_matrix serv_phi i in\n    let dst := dst [+] (','C89: right hand side with swapped marks')
M('ad8','fconstrain',X,'(dst [+] fsub (src i) dst)','(src i)','C89: the constrained row overwrites the product (the better program; refutation must fail)')
M('ad9','fconstrain',X,'fsub d (snd e [*] src (fst e))','d [+] (snd e [*] src (fst e))','C89: weights with the wrong sign')
M('ad10','fconstrain',X,'(dst [+] fsub (src i) dst)','(dst [+] fsub dst (src i))','C89: difference reversed')
M('ad11','fco_rhs',X,'Some l => l_inhom l','Some l => Some (frhs rhs i)','C89: inhomogeneities not put into the right hand side')
M('ad12','fproduct',X,'(cpu_set (numbers p sub np) (owner_of p sub np i)) (cols i) v i','(cpu_set (numbers p sub np) 0) (cols i) v i','C89: rows of other processes read from process 0 (zeros)')
# C82-C85: FMM runs
X='ModelRunFmm'
M('ae1','fmm_mesh',X,'o_pos := fun i => f_pos f (s2o (numbers p sub np) i)','o_pos := fun i => f_pos f i','C85: positions not renumbered')
M('ae2','fmm_mesh',X,'o_cdofs := dofs_now (numbers p sub np)','o_cdofs := p_dofs p','C85: cells with the old numbers')
M('ae3','fmm_mesh',X,'o_dbl := run_doubles p sub np','o_dbl := fun i => [i]','C85: octree without double nodes')
M('ae4','fmm_normal',X,'(rp_normal (p_regular p) q 1) (rp_normal (p_regular p) q 2)','(rp_normal (p_regular p) q 2) (rp_normal (p_regular p) q 1)','C67: components of the normals swapped')
M('ae5','fmm_rule',X,'rule_at 3 m (run_node p sub np)','rule_at 3 m (p_node p)','C85: nodes of the singular rules not renumbered')
M('ae6','fmm_own',X,'(owner_of p sub np i)','0','C85: rows computed by process 0 only')
M('ae7','fmm_system',X,'(fmm_rule neumann_matrix)','(fmm_rule dirichlet_matrix)','C67: wrong singular rule in the double layer')
M('ae8','fmm_system',X,'fmm_mesh (f_order f) Single','fmm_mesh (f_order f) (Double fmm_normal)','C67: single layer computed with the double layer kernel')
M('ae9','fmm_phi',X,'solved_phi fmm_system (run_phi0 p sub np) sol','solved_phi fmm_system (run_dphi0 p sub np) sol','C67: potential filled from the fluxes')
M('ae10','fmm_system',X,'s_hanging := s_hanging (run_system p sub np)','s_hanging := fun _ => None','C85: hanging nodes dropped in FMM mode')
