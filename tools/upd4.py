import sys; sys.path.insert(0,'/tmp/work')
from setp import setp
setp(id="C11",statement="For every n<=20, m<=n and every x in [-1,1], GetAssLegFunSph(n,m,x) is defined (no division by zero, no root of a negative number) and is the normalised associated Legendre function (-1)^m sqrt((n-m)!/(n+m)!) (1-x^2)^(m/2) d^m/dx^m P_n(x) (Rodrigues' formula); AssLegFunSph fills y[n-m] with these for n=m..p. For n>20 or m>n the accessors read their tables out of bounds.",quantifier="all 231 functions and every real x in [-1,1]; all n, m for the out of bounds part")
setp(id="C12",statement="For every n<=20, m<=n and every x in (-1,1), GetAssLegFunSphDeriv(n,m,x) is the derivative at x of GetAssLegFunSph(n,m,.). At x=+-1 it divides by zero exactly for m=1; for every other m it is defined on [-1,1] and continuous there.")
