*.vo
*.vok
*.vos
*.glob
*.aux
.*.cache
*.d
Makefile
Makefile.conf
