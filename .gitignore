.lia.cache
*.vo*
*.glob
*.aux
*.cache
*.cache
