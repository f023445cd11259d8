import re,sys
for f in sys.argv[1:]:
    t=open(f).read()
    for p in re.split(r'\n(?=\S+ \S+ \|)',t):
        print(p[:60].replace('\n',' '), '|| SURV' if "THM []" in p else '', 'BROKEN []' if 'BROKEN []' in p else '', 'ok' if 'THM [' in p and 'THM []' not in p else '')
