#!/bin/sh
cd /verif/rocq && { echo "-Q theories Verif"; ls theories/*.v; } > _CoqProject
