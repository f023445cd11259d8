s=open('ProofsOctGeom.v').read()
# 1. child_min_co -> rounded form
a=s.index("Lemma child_min_co"); b=s.index("Section Geom.")
s=s[:a]+'''Definition rshift (r : Q -> Q) (z : Z) (x d : Q) : Q := if Z.eqb z 1 then r (x + d)%Q else x.
Lemma child_min_co r m d c a : c < 8 -> co a (child_min r m d c) = rshift r (bit a c) (co a m) d.
Proof. intros H. unfold rshift. destruct a as [|[|a]]; do 8 (destruct c as [|c]; [reflexivity|]); lia. Qed.

'''+s[b:]
# kid_fields
s=s.replace("b_min (B k) = child_min (b_min","b_min (B k) = child_min (o_rnd I) (b_min")
# positions part
a=s.index("  Lemma pos_grid a k"); 
s=s[:a]+"  (*POS*)\n"+s[a:]
open('/tmp/work/ProofsOctGeom.orig','w').write(s)
