#!/usr/bin/env python3
"""coqc -time, stopped when one sentence takes longer than STALL seconds.

Used by mutate.py in place of coqc.  On a stop, the byte offset reached is written to
<file>.stall; otherwise the output is passed on without the timing lines."""
import os, re, select, signal, subprocess, sys, time

STALL = 100
args = sys.argv[1:]
src = [a for a in args if a.endswith('.v')]
if not src: os.execvp('coqc', ['coqc'] + args)
mark = src[0] + '.stall'
if os.path.exists(mark): os.remove(mark)
p = subprocess.Popen(['coqc', '-time'] + args, stdout=subprocess.PIPE, stderr=subprocess.STDOUT)
fd = p.stdout.fileno(); buf = b''; out = []; last = 0; t = time.time()
while True:
    r, _, _ = select.select([fd], [], [], 5)
    if r:
        d = os.read(fd, 65536)
        if not d: break
        t = time.time(); buf += d
        *lines, buf = buf.split(b'\n')
        for l in lines:
            m = re.match(rb'Chars (\d+) - (\d+) ', l)
            if m: last = int(m.group(2))
            else: out.append(l)
    elif time.time() - t > STALL:
        p.send_signal(signal.SIGKILL); p.wait()
        open(mark, 'w').write(str(last)); sys.exit(124)
sys.stdout.buffer.write(b'\n'.join(out + [buf]) + b'\n'); sys.stdout.flush()
code = p.wait()
# killed for lack of memory, or without a message
if code not in (0, 1): open(mark, 'w').write(str(last))
sys.exit(code if code >= 0 else 125)
