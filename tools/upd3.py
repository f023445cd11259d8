import sys; sys.path.insert(0,'/tmp/work')
from setp import setp
setp(id="C13",title="The Laplace kernels are the fundamental solution and its gradient",statement="For R<>0, in two and three dimensions, single_layer and every kernels overload return the free-space fundamental solution (-ln|R|/(2 pi), 1/(4 pi |R|)); double_layer and the two-output overload return its gradient, as does the three-output overload in 2D; in 3D the three-output overload returns the gradient with the opposite sign (finding: a user would expect the overloads to agree).",quantifier="every nonzero R in dimension 2 and 3, every component")
setp(id="C14",title="The hypersingular kernel is the Jacobian of the vector kernel",statement="For R<>0 the three-output overload's H is the Jacobian of the D returned with it, symmetric and trace free, in 2D and 3D. LaplaceKernel::hypersingular returns the same in 2D; in 3D it is the same off the diagonal and at (2,2), but at (0,0) only when R1=R2=0 and at (1,1) only when R2=0, because its inner loop stops instead of skipping the diagonal (finding).",quantifier="every nonzero R in dimension 2 and 3, every pair of components")
