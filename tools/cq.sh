#!/bin/bash
# compile the given theory names, reporting timeouts
cd /verif/rocq/theories
for f in "$@"; do timeout ${T:-200} coqc -Q . Verif $f.v > /tmp/cq.out 2>&1; r=$?; grep -v "Closed under" /tmp/cq.out | head -${L:-40}; [ $r -eq 0 ] || { echo "FAIL $f rc=$r"; exit 1; }; done; echo ok
