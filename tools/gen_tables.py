#!/usr/bin/env python3
"""Copies the byte tables of /repo literally into rocq/theories/Tables.v."""
import re, ast, sys
files = [("/repo/bytemaps.go", ["bytemapIsDigit","bytemapIsNumberEnd","bytemapIsSpace"]),
         ("/repo/strjson/bytemaps.go", ["bytemapFromHex","bytemapToHex","bytemapToJSON"]),
         ("/repo/numjson/bytemaps.go", ["bytemapToDigit"])]
out = ["(* GENERATED by tools/gen_tables.py: the lookup tables of the Go source, copied literally. *)",
       "From Coq Require Import List.", "From Coq.Init Require Import Byte.","Import ListNotations.",""]
for fn, names in files:
    lines = open(fn).read().split("\n")
    for n in names:
        for ln, l in enumerate(lines, 1):
            m = re.match(r'\s*%s\s*=\s*"(.*)"\s*$' % n, l)
            if m: break
        else: sys.exit("no table "+n)
        b = ast.literal_eval('b"'+m.group(1)+'"')
        assert len(b)==256, (n,len(b))
        out.append("(* %s:%d  const %s *)" % (fn.replace("/repo/",""), ln, n))
        out.append("Definition %s : list byte :=" % n)
        rows = ["; ".join("x%02x"%c for c in b[i:i+16]) for i in range(0,256,16)]
        out.append("  ["+";\n   ".join(rows)+"].\n")
open("/verif/rocq/theories/Tables.v","w").write("\n".join(out))
