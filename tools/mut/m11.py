muts=[]
def M(id,d,f,old,new,claim,edit=None):
    muts.append(dict(id=id,**{'def':d},edits=[(f,old,new)],edit=edit or f'{old!r} -> {new!r}',claim=claim))
X='ModelFloatExp'
M('ca20b','fadd_loop',X,'then fcadd (C i) a else C i','then fcadd (0, 0) a else C i','C91: coefficients overwritten')
M('cb5b','fsum','ModelFloatExp2','Some t => fcadd M z t | None => z','Some t => fcadd M (0, 0) t | None => z','C91: sum overwritten')
X='ModelMain'
M('da1','atoi',X,'| None => Some 0\n','| None => None\n','C92: a word is not accepted')
M('da2','atoi',X,'let z := if neg then - v else v in','let z := v in','C92: sign ignored')
M('da3','atoi',X,'(z <? 2 ^ 31)','(z <=? 2 ^ 31)','C92: range of int')
M('da4','threads_of',X,'| [_] => Some invalid_unsigned_int','| [_] => Some 1','C92: one thread without an argument')
M('da5','threads_of',X,'| _ :: a :: _ => option_map u32 (atoi a)','| a :: _ :: _ => option_map u32 (atoi a)','C92: argv[0] read')
M('da6','threads_of',X,'option_map u32 (atoi a)','atoi a','C92: no conversion to unsigned')
M('da7','next',X,'| Some (w1, Some e) => Some (w1, Some e)','| Some (w1, Some e) => q w1','C92: exceptions swallowed')
M('da8','cycles',X,'if i <=? c then','if i <? c then','C92: one cycle too few')
M('da9','cycles',X,'negb g && (i <? c)','negb g && (i <=? c)','C92: refinement after the last cycle')
M('da10','cycles',X,'negb g && (i <? c)','(i <? c)','C92: adaptive refinement in global mode')
M('da11','cycles',X,'next (call Adapt) (call Update)','next (call Update) (call Adapt)','C92: update before refinement')
M('da12','cycles',X,'next (call Adapt) (call Update)','call Adapt','C92: no update after the refinement')
M('da13','cycles',X,'next (call Reinit) (next (call Solve)','next (call Solve) (next (call Reinit)','C92: solve before set-up')
M('da14','run',X,'(next (call Errors) (next (call Output) (call Summary)))','(next (call Output) (next (call Errors) (call Summary)))','C92: output before the errors')
M('da15','run',X,'if g then u32 n else u32 p','if g then u32 p else u32 n','C92: numbers of refinements swapped')
M('da16','run',X,'if g then 0 else u32 n','if g then 0 else u32 p','C92: number of cycles from the wrong parameter')
M('da17','run',X,'(next (call Update)\n      (next (cycles','(next nothing\n      (next (cycles','C92: first update missing')
M('da18','body',X,'next (call Construct) (next (call Read)','next (call Read) (next (call Construct)','C92: parameters read before the construction')
M('da19','body',X,'run (global w) (n_cycles w) (pre w) fuel w','run (global w) (pre w) (n_cycles w) fuel w','C92: parameters swapped')
M('da20','main',X,'Some (1, report e, w\')','Some (0, report e, w\')','C92: exit status 0 after an exception')
M('da21','main',X,'Some (0, [], w\')','Some (1, [], w\')','C92: exit status 1 without an exception')
M('da22','report',X,'"Exception on processing: "; what; "Aborting!"','"Exception on processing: "; "Aborting!"','C92: message lost')
M('da23','run',X,'(next (call Output) (call Summary))','(call Summary)','C92: results never written')
M('da24','cycles',X,'(u32 (i + 1))','(i + 1)','C92: counter without wrap')
X='ModelFloatFmm'
M('db1','fcoordinate',X,'(Q2R d) 2)','(Q2R d) 4)','C93: centre at a quarter of the side')
M('db2','fblock_center',X,'(fcoordinate (pz (b_min B)) (b_delta B))','(fcoordinate (py (b_min B)) (b_delta B))','C93: z of the centre from y')
M('db3','fadd_scaled_nan',X,'None => if Req_EM_T a 0 then Some e else None','None => Some e','C93: NaN skipped when added with a coefficient')
M('db4','fadd_scaled_nan',X,'None => if Req_EM_T a 0 then Some e else None','None => None','C93: zero coefficients do not skip a NaN')
M('db5','float_eops',X,'lz := fun b => Some (ModelExp.fresh p (fblock_center b))','lz := fun b => Some (ModelExp.fresh p (fblock_center 0))','C93: local expansions about the root')
M('db6','float_eops',X,'mz := fun b => Some (ModelExp.fresh p (fblock_center b))','mz := fun b => Some (ModelExp.fresh p (fblock_center 0))','C93: multipole expansions about the root')
M('db7','float_eops',X,'laddm := lift2 (fl_convert M pow_i)','laddm := fun l m => match lift2 (fl_convert M pow_i) l m with None => l | r => r end','C93: NaN of a conversion dropped')
M('db8','float_eops',X,'laddl := lift2 (fl_translate M pow_i)','laddl := fun l m => match m with None => l | _ => lift2 (fl_translate M pow_i) l m end','C93: NaN of the parent dropped')
M('db9','float_eops',X,'madd := lift2 (fm_translate M pow_i)','madd := fun l m => match m with None => l | _ => lift2 (fm_translate M pow_i) l m end','C93: NaN of a child dropped')
M('db10','float_eops',X,'| Single => fm_charge M e w (rpt (o_qpos I q))','| Single => fm_dipole M e w (rpt (o_qpos I q)) (ModelExp.Pt 1 0 0)','C93: single layer added as dipoles')
M('db11','float_eops',X,'| Double n => fm_dipole M e w (rpt (o_qpos I q)) (n q)','| Double n => fm_charge M e w (rpt (o_qpos I q))','C93: double layer added as charges')
M('db12','float_eops',X,'fl_evaluate M e (rpt (o_pos I i))','fl_evaluate M e (rpt (o_qpos I i))','C93: local expansion evaluated at a quadrature point')
M('db13','float_eops',X,'fm_evaluate M e (rpt (o_pos I i))','fm_evaluate M e (rpt (o_qpos I i))','C93: multipole expansion evaluated at a quadrature point')
X='ModelFmm'
M('db14','ascend1',X,'upd M p (madd E (M p) (madd E (mz E p) (M k)))','upd M p (madd E (mz E p) (M k))','C93, C01: last child overwrites the others')
M('db15','descend_local',X,'(laddl E (lz E b) (L (b_parent (getb (st_blocks st) b))))','(lz E b)','C93, C01: local expansion of the parent not passed down')
if __name__=='__main__':
    import sys; print(len(muts))
X='ModelFloatExp2'
M('dc1','fl_eval_term',X,'let realFact := P [*] fpow M rho (Z.of_nat n) in\n    bind (fget e n m)','let realFact := ((P [+] 1) [+] (-1)) [*] fpow M rho (Z.of_nat n) in\n    bind (fget e n m)','C94: cancellation added, the exact program unchanged')
M('dc2','fl2l_table',X,'Some (q [*] A3 [*] (pow_i','Some (((q [*] A3 [+] 1) [+] (-1)) [*] (pow_i','C94: cancellation in the table of the local translation')
M('dc3','fm_add_scaled',X,'Some (fcmulr M a sol)','Some (fcmulr M a ((sol [+] 1) [+] (-1)))','C94: cancellation in the coefficient')
M('dc4','fm2l_term',X,'let realFact := P [*] fpow M rho (- Z.of_nat n - Z.of_nat nn - 1) [*] t in','let realFact := P [*] ((fpow M rho (- Z.of_nat n - Z.of_nat nn - 1) [+] 1) [+] (-1)) [*] t in','C94: cancellation in the power')
M('dc5','fA_n_m',X,'bind (froot M (fdown 1 (n - m) [*] fdown 1 (n + m)))','bind (froot M (fdown 1 (n - m) [*] fdown 1 (n + m) [+] 1 [+] (-1)))','C94: cancellation in the constants')
M('dc6','fcharge_term','ModelFloatExp','let realFact := P [*] fpow M rho (Z.of_nat n) [*] strength in','let realFact := ((P [*] fpow M rho (Z.of_nat n) [+] 1) [-] 1) [*] strength in','C94: cancellation in a charge')
M('dc7','fm2l_coeff',X,'fsum2 (seq 0 (p + 1)) sym_range (fm2l_term other rho c beta n m).','fsum2 (seq 0 p) sym_range (fm2l_term other rho c beta n m).','C94/C91: last degree left out of the conversion')
M('dc8','fl2l_term',X,'let a := (fst g, IZR (GSL_SIGN mm) [*] snd g) in','let a := (fst g, IZR (GSL_SIGN (mm - mz)) [*] snd g) in','C94/C91: sign of the wrong order')
X='ModelLegTable'
