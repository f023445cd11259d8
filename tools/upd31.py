from setp import setp
import json
setp(id="C88", title="What a refinement cycle computes does not depend on the cycles before it",
statement="In a run with local refinement in Direct mode without a spheroid (and with a row distribution determined by the number of unknowns, as on one process), every cycle computes exactly what a new process started on the mesh of that cycle would compute; the run visits the same meshes and reports the same answers as a driver without memory. History shows in exactly these ways: with a spheroid the first cycle only is stretched; every later cycle computes what a new process without the spheroid would (refuted that it is stretched); a cycle with as many unknowns as an earlier one but another distribution uses the vector of ones of the old distribution (refuted); in FMM mode the node-to-cell map of a cycle also holds the entries of all earlier cycles (refuted that it does not), which can change the lists, but two FMM solves on the same mesh after any two histories return potentials and fluxes that differ by at most M(err1+err2), the truncation errors of C59 times the condition of the Direct problem.",
quantifier="all numbers of cycles, meshes, refinement responses, parameters, answers of the cycles; for FMM all histories, executions, partitions",
why_tests_cant="a test runs a few cycles on a few meshes; the claim is about every history of every run, and stale data often gives plausible numbers",
anchors=["source/driver.cc: Driver::run","source/bem_problem.cc: BEMProblem::reinit, get_singular_quadrature, compute_alpha, solve","source/bem_fma.cc: generate_octree_blocking (dof_to_elems)"])
P=[json.loads(l) for l in open('/verif/properties.jsonl')]
for d in P:
    if d['id']=='C67':
        d['statement']+=" This holds in every refinement cycle, whatever earlier cycles left in the tables."
open('/verif/properties.jsonl','w').write('\n'.join(json.dumps(d) for d in P)+'\n')
s=open('/verif/DESIGN.md').read()
L=s.split('\n')
i=max(k for k,l in enumerate(L) if l.startswith('| C87 |'))
L.insert(i+1,"| C88 | ModelHistory: Driver::run with the state that survives a cycle (map_vector and mapping, static ones and quadratures, dof_to_elems); the answer of a cycle is any function of its mesh and that state | spec: SpecHistory (what a log of solves should be); invariant of the surviving state over the loop; refinement to the memoryless driver of C44; FMM closeness from C67 with leftovers as an argument of ModelRunFmm |")
i=max(k for k,l in enumerate(L) if l.startswith('| ModelTwoFe |'))
L.insert(i+1,"| ModelHistory | driver.cc 78-114 with bem_problem.cc 189-222, 421-456, 1557-1569 and bem_fma.cc 3989-3993: what one refinement cycle leaves to the next |")
s='\n'.join(L)
i=s.index(' C87 different scalar and vector elements'); j=s.index('\n',i)
s=s[:j]+' C88 a cycle depends on earlier ones through the spheroid, the layout of the vector of ones and (FMM) the node-to-cell map;'+s[j:]
open('/verif/DESIGN.md','w').write(s)
