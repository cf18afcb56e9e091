#!/bin/sh
# DESIGN.md = tools/design_head.md + assumptions + tools/design_tail.md + status list
cd /verif && { cat tools/design_head.md; python3 tools/assumptions.py; cat tools/design_tail.md; python3 tools/design_plan.py; } > /tmp/DESIGN.md && mv /tmp/DESIGN.md DESIGN.md
