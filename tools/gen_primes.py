# Generates rocq/theories/MPrimes16.v from /repo/spffl/intmath/primes_16.cpp.
import re
s=open('/repo/spffl/intmath/primes_16.cpp').read()
m=re.search(r'primes_16\[\] = \{(.*?)\};',s,re.S).group(1)
v=[int(x) for x in m.replace('\n',' ').split(',')]
lines=['; '.join(map(str,v[i:i+16])) for i in range(0,len(v),16)]
open('/verif/rocq/theories/MPrimes16.v','w').write('''(* spffl/intmath/primes_16.cpp:11-... : the table primes_16, transcribed
   mechanically (tools/gen_primes.py).  numprimes16 is its length. *)
From Coq Require Import ZArith List.
Import ListNotations.
Open Scope Z_scope.
Definition primes_16 : list Z := [
'''+';\n'.join(lines)+'''].
''')
