#!/usr/bin/env python3
"""Writes rocq/theories/Gen/RepoTestsInst.v: the files of cocogen/tests as texts of the model."""
import glob, os
out = '''(** The specification files with which the project tests cocogen
    (/repo/cocogen/tests), as they are there; written by tools/repo_tests.py.
    pass/runner.sh demands that cocogen ends with success for each file in
    pass, fail/runner.sh that it does not for each file in fail. *)

From Coq Require Import String.
From Coq Require Import List Ascii.
From Verif Require Import Front.ScannerModel Gen.CompileInst.
Import ListNotations.
Local Open Scope string_scope.

'''
names = {}
for kind in ('pass', 'fail'):
    names[kind] = []
    for path in sorted(glob.glob('/repo/cocogen/tests/%s/*.ccn' % kind)):
        name = kind + '_' + os.path.basename(path)[:-4]
        names[kind].append(name)
        text = open(path, encoding='latin1').read().replace('"', '""')
        out += '(** cocogen/tests/%s/%s *)\nDefinition %s : ScannerModel.text := txt "%s".\n\n' % (kind, os.path.basename(path), name, text)
for kind in ('pass', 'fail'):
    out += 'Definition %s_files : list ScannerModel.text :=\n  [%s].\n' % (kind, ';\n   '.join(names[kind]))
open('/verif/rocq/theories/Gen/RepoTestsInst.v', 'w').write(out)
