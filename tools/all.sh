#!/bin/bash
cd /verif && python3 tools/props.py && python3 tools/plan.py && python3 tools/design.py && python3 tools/manifest.py
